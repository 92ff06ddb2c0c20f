"""Turns the raw log of the mutation runs into seeded/LOG.jsonl."""
import json, sys
TIGHTENED = {
    "m024": ["C47_to_slice", "C47_to_slice_panics"],
    "m118": ["C54_parse_float"],
    "m141": ["C55_word_characters"],
    "m197": ["C45_unmarshal_rows"],
    "m326": ["C64_quote", "C64_agrees"],
    "m331": ["C64_type_names"],
    "m339": ["C46_other_accessor"],
    "m348": ["C15_character_lists"],
    "m438": ["C61_get", "C61_type_names"],
    "m439": ["C61_get", "C61_type_names"],
    "m467": ["C45_unmarshal_errors"],
    "m470": ["C67_date_time_texts"],
    "m480": ["C46_get_any", "C46_other_keys", "C46_not_initialised"],
    "m250": ["C53_make_panics", "C53_copy_panics"],
    "m506": ["C42_failed_sequence", "C42_missed_alternatives"],
    "m541": ["C42_rules_in_place"],
    "m576": ["C27_equal", "C27_panics"],
    "m595": ["C42_after_panics"],
    "m597": ["C42_before_panics"],
    "m603": ["C68_set_nil_map"],
    "m715": ["C73_main_error"],
    "m721": ["C57_failing_leaves"],
    "m725": ["C76_if"],
    "m974": ["C64_constant_names"],
}
NOTES = {
    "m024": "survived at first; C47 was added and fails with the edit (to_slice_ok)",
    "m118": "survived at first; C54 was added and covers the edited definition",
    "m141": "survived at first; C55_word_characters was added",
    "m197": "survived at first; C45_unmarshal_rows was added",
    "m229": "the proof of L_Time no longer went through: coqc was stopped after 13 minutes without an answer",
    "m244": "equivalent program: the edit does not change the result on any input",
    "m326": "survived at first; C64 was added (m400 repeats the edit)",
    "m331": "survived at first; C64_type_names was added (m401 repeats the edit)",
    "m339": "survived at first; C46_other_accessor was added (m402 repeats the edit)",
    "m343": "equivalent program: the edit does not change the result on any input",
    "m348": "survived at first; C15_character_lists was added (m403 repeats the edit)",
    "m438": "survived at first; the names of types are now described independently (m500 repeats the edit)",
    "m439": "survived at first; the names of types are now described independently (m501 repeats the edit)",
    "m467": "survived at first; C45_unmarshal_errors was added (m502 repeats the edit)",
    "m470": "survived at first; C67 was added, which covers texts other than those of the token parsers (m504 repeats the edit)",
    "m480": "survived at first; which values fit an element type is now described independently (m503 repeats the edit)",
    "m250": "survived at first; C53_make_panics and C53_copy_panics were added",
    "m506": "survived at first; C42_failed_sequence and C42_missed_alternatives were added (m580 repeats the edit)",
    "m541": "survived at first; C42_rules_in_place was added (m581 repeats the edit)",
    "m576": "survived at first; C27_equal and C27_panics were added (m582 repeats the edit)",
    "m595": "survived at first; the context of a panic event is now stated (m800 repeats the edit)",
    "m597": "survived at first; the context of a panic event is now stated (m801 repeats the edit)",
    "m603": "survived at first; C68_set_nil_map was added (m802 repeats the edit)",
    "m715": "survived at first; C73_main_error was added (m803 repeats the edit)",
    "m721": "survived at first; C57_failing_leaves was added (m804 repeats the edit)",
    "m723": "survived; the edited definition was an unused abbreviation and was removed, the grammars use ELookBehind directly",
    "m725": "survived at first; C76_if was added (m805 repeats the edit)",
    "m974": "survived at first; C64_constant_names was added (m1016 repeats the edit)",
    "m993": "survived; the edited definition was an unused duplicate of AstType_String and was removed",
    "m753": "equivalent for the claims: the type of the number AST is not observable through Parse",
    "m810": "the answers may be the same without the memory of visited pairs; the proofs of C75 describe the memory and fail",
    "m816": "the answers may be the same without the shortcut for equal pointers unless the slices hold NaN; the proofs of C75 fail",
}
for i in range(159, 165):
    NOTES["m%d" % i] = "survived at first; the theorems of C48 were added"
    TIGHTENED["m%d" % i] = ["C48_rewrites_top", "C48_no_case", "C48_case_matchers"]
with open("/verif/seeded/LOG.jsonl", "w") as f:
    for line in open(sys.argv[1]):
        r = json.loads(line)
        o = {"id": r["id"], "definition": r["definition"], "edit": r["edit"], "claim_broken": r["claim_broken"],
             "first_failures": r["first_failures"], "theorems_failed": r["theorems_failed"],
             "survived": r["survived"], "theorems_tightened": TIGHTENED.get(r["id"], [])}
        if r["id"] in NOTES:
            o["note"] = NOTES[r["id"]]
        f.write(json.dumps(o) + "\n")
