(** Model of the SliceLike methods of AstSlice (base/ast.go:257-287) with Go's slice
    semantics.  ItemEquals is in M_Equal. *)
From Verif Require Export M_Heap.

(** cap(s) *)
Definition s_cap (h : heap) (s : slice) : nat := (length (cells h (s_arr s)) - s_off s)%nat.

(** 258-260 *)
Definition ast_len (s : slice) : Z := Z.of_nat (s_len s).
(** 263-265 *)
Definition ast_get (h : heap) (s : slice) (i : Z) : res ast :=
  if (i <? 0) || (ast_len s <=? i) then Panic "index out of range"
  else match nth_error (elems h s) (Z.to_nat i) with
       | Some a => Ok a
       | None => Panic "index out of range"
       end.
(** 268-270 *)
Definition ast_set (h : heap) (s : slice) (i : Z) (v : value) : res heap :=
  match v with
  | VAst a =>
      if (i <? 0) || (ast_len s <=? i) then Panic "index out of range"
      else Ok (go_update h s (Z.to_nat i) (fun _ => a))
  | _ => Panic "interface conversion"
  end.
(** [s[start:end]]: the bound is the capacity, not the length. *)
Definition go_slice (h : heap) (s : slice) (start fin : Z) : res slice :=
  if (0 <=? start) && (start <=? fin) && (fin <=? Z.of_nat (s_cap h s))
  then Ok (mkSlice (s_arr s) (s_off s + Z.to_nat start) (Z.to_nat (fin - start)))
  else Panic "slice bounds out of range".
(** 273-275 *)
Definition ast_reslice := go_slice.
(** [make(AstSlice, len, cap)] *)
Definition go_make (h : heap) (len cap : Z) : res (heap * slice) :=
  if len <? 0 then Panic "makeslice: len out of range"
  else if cap <? len then Panic "makeslice: cap out of range"
  else Ok (alloc h (Z.to_nat cap) (repeat zero_ast (Z.to_nat len))).
(** 278-281 *)
Definition ast_copy (g : growth) (h : heap) (s : slice) (start fin : Z) : res (heap * slice) :=
  match go_make h 0 (fin - start) with
  | Ok (h1, w) =>
      match go_slice h s start fin with
      | Ok t => Ok (go_append g h1 w (elems h1 t))
      | Panic x => Panic x
      | Fuel => Fuel
      end
  | Panic x => Panic x
  | Fuel => Fuel
  end.
(** 284-286 *)
Definition ast_make := go_make.
