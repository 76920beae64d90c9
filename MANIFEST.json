{
 "claims": [
  {
   "property": "C01",
   "status": "partial",
   "theorems": [
    "C01_identity_partial",
    "C01_commas_partial",
    "C01_identity_refuted",
    "C01_flow_mapping_layout_refuted",
    "C01_flow_mapping_comment_refuted",
    "C01_number_split_refuted",
    "C01_empty_block_refuted",
    "C01_block_in_list_refuted",
    "C01_nul_refuted",
    "C01_idempotent_refuted"
   ],
   "note": "False as stated (witnesses); proved for inputs without the constructs that break it. C49 says exactly which texts come back unchanged and what the others come back as."
  },
  {
   "property": "C02",
   "status": "proved",
   "theorems": [
    "C02_nothing_lost"
   ],
   "note": ""
  },
  {
   "property": "C03",
   "status": "partial",
   "theorems": [
    "C03_agree_parsed_partial",
    "C03_agree_edited",
    "C03_after_edit_refuted"
   ],
   "note": "Proved for parsed documents. After edits the statement is false; C03_agree_edited says exactly when the two renderers agree."
  },
  {
   "property": "C04",
   "status": "partial",
   "theorems": [
    "C04_terminates_partial",
    "C04_terminates_refuted",
    "C04_hangs",
    "C04_open",
    "C50_stuck"
   ],
   "note": "False for an unterminated single-quoted string (witness); proved for all other inputs. C04_hangs: every text in which such a string is the document or the value of the first key hangs. C50_stuck: exactly which texts hang."
  },
  {
   "property": "C05",
   "status": "proved",
   "theorems": [
    "C05_no_panic",
    "C05_span"
   ],
   "note": ""
  },
  {
   "property": "C06",
   "status": "proved",
   "theorems": [
    "C06_edits_run",
    "C06_readable",
    "C06_handle"
   ],
   "note": ""
  },
  {
   "property": "C07",
   "status": "proved",
   "theorems": [
    "C07_set_local",
    "C07_set_local_display"
   ],
   "note": ""
  },
  {
   "property": "C08",
   "status": "proved",
   "theorems": [
    "C08_stable"
   ],
   "note": "For every value other than the edited one and the one the edit returns a handle on."
  },
  {
   "property": "C09",
   "status": "partial",
   "theorems": [
    "C09_dead_reads",
    "C09_dead_writes",
    "C09_removed_dead_partial",
    "C09_dead_stays_partial",
    "C09_stale_id_refuted"
   ],
   "note": "False as stated: a stale id may alias a newer value. Proved: removal leaves the id dead, reads through a dead id panic, writes through it panic or do nothing, and an edit does not make it a value of the document again unless that edit returns it."
  },
  {
   "property": "C10",
   "status": "proved",
   "theorems": [
    "C10_integers"
   ],
   "note": ""
  },
  {
   "property": "C11",
   "status": "proved",
   "theorems": [
    "C11_written",
    "C11_applicable"
   ],
   "note": ""
  },
  {
   "property": "C12",
   "status": "proved",
   "theorems": [
    "C12_reads",
    "C12_insert",
    "C12_remove",
    "C12_clear",
    "C08_stable"
   ],
   "note": ""
  },
  {
   "property": "C13",
   "status": "proved",
   "theorems": [
    "C13_reads",
    "C13_push",
    "C13_remove",
    "C13_clear"
   ],
   "note": ""
  },
  {
   "property": "C14",
   "status": "partial",
   "theorems": [
    "C14_mapping_partial",
    "C14_sequence_partial",
    "C14_both_ends",
    "C14_once",
    "C14_nth_back_exact",
    "C14_nth_back_refuted"
   ],
   "note": "False as stated: nth_back skips from the front. Proved for every interleaving of next, next_back, nth and size_hint. C14_mapping_partial, C14_sequence_partial and C14_once cover nth_back too (as it is in the crate): no entry is given twice, and a used-up iterator stays so. C14_nth_back_exact: when nth_back gives what it should."
  },
  {
   "property": "C15",
   "status": "proved",
   "theorems": [
    "C15_single_quotes"
   ],
   "note": ""
  },
  {
   "property": "C16",
   "status": "partial",
   "theorems": [
    "C16_double_quotes_partial",
    "C16_exact",
    "C16_backslash_refuted",
    "C16_quote_refuted"
   ],
   "note": "False as stated (witnesses); C16_exact proves that a string in double quotes reads back if and only if it has no double quote and no backslash."
  },
  {
   "property": "C17",
   "status": "partial",
   "theorems": [
    "C17_set_string_partial",
    "C17_exact",
    "C17_set_string_refuted",
    "C17_more_refuted"
   ],
   "note": "False as stated (witnesses); C17_exact proves that a string set with set_string reads back if and only if it satisfies survives, a condition on the string alone."
  },
  {
   "property": "C18",
   "status": "proved",
   "theorems": [
    "C18_plain_line"
   ],
   "note": ""
  },
  {
   "property": "C19",
   "status": "partial",
   "theorems": [
    "C19_decodes_partial",
    "C19_exact",
    "C19_rejects",
    "C19_backslash_refuted",
    "C19_quote_refuted"
   ],
   "note": "Proved for every escape except the two the crate gets wrong, with those as witnesses; malformed escapes are rejected. C19_exact: exactly which texts behind an opening double quote are one string, and which string."
  },
  {
   "property": "C20",
   "status": "partial",
   "theorems": [
    "C20_chomp_partial",
    "C20_actual",
    "C20_clip_refuted"
   ],
   "note": "Proved for strip and keep, and for clip with one newline; clip with more newlines keeps them all, with a witness. C20_actual: it always does."
  },
  {
   "property": "C21",
   "status": "partial",
   "theorems": [
    "C21_mapping_text",
    "C21_sequence_text",
    "C21_make_mapping_partial",
    "C21_make_sequence_partial",
    "C21_aligned_refuted"
   ],
   "note": "False in the first item of an indented list, with a witness. C21_mapping_text and C21_sequence_text say for every reachable document and value, and any number of inserts of distinct keys or pushes, where the entries stand: all but the first in column n, and the first in column n too unless the value is after a dash whose layout has no line break; in a mapping or flow sequence n is its indentation plus two. The _partial theorems are about reading back: Proved for values of documents edited under the conditions of C38 that are in no flow collection and not the first item of a sequence, with any number of inserted or pushed scalars."
  },
  {
   "property": "C22",
   "status": "partial",
   "theorems": [
    "C22_insert_block_partial",
    "C22_push_block_partial",
    "C22_set_block_partial",
    "C22_block_refuted",
    "C22_end_refuted"
   ],
   "note": "False in nested mappings and at the end of a text without a line break, with witnesses. Proved for documents edited under the conditions of C38 and lines without white space at their ends: insert and push where the block is followed by a line break and no comment, and set where the next line is also less indented than the block."
  },
  {
   "property": "C23",
   "status": "partial",
   "theorems": [
    "C23_terminates_partial",
    "C23_loops_otherwise",
    "C23_deserialize_refuted"
   ],
   "note": "False as stated. Proved: it returns whenever the number parses at its own type, and runs forever otherwise."
  },
  {
   "property": "C24",
   "status": "proved",
   "theorems": [
    "C24_mirrors"
   ],
   "note": "Serializer calls as a tree; float parsing is an arbitrary function."
  },
  {
   "property": "C25",
   "status": "proved",
   "theorems": [
    "C25_first_wins",
    "C25_no_confusion",
    "C25_edits"
   ],
   "note": "For every hash function."
  },
  {
   "property": "C26",
   "status": "partial",
   "theorems": [
    "C26_first_key_partial",
    "C26_actual_keys",
    "C26_not_found",
    "C26_block_key_refuted",
    "C26_flow_key_refuted"
   ],
   "note": "Proved for the first key of a block mapping; false for later keys and flow mappings, with witnesses. C26_actual_keys says what these are instead, for every mapping of every accepted text: a part of the text as it is; C26_not_found says that get then finds nothing under what the quotes stand for."
  },
  {
   "property": "C27",
   "status": "partial",
   "theorems": [
    "C27_rest_partial",
    "C27_header",
    "C27_header_refuted"
   ],
   "note": "The header is dropped (witness). What follows is kept for UTF-8 input without flow collections that does not end in an empty block scalar; C27_header says exactly what is kept for every accepted input."
  },
  {
   "property": "C28",
   "status": "proved",
   "theorems": [
    "C28_integers",
    "C28_total"
   ],
   "note": ""
  },
  {
   "property": "C29",
   "status": "proved",
   "theorems": [
    "C29_insert",
    "C29_insert_present",
    "C29_remove_key",
    "C29_clear_mapping",
    "C29_push",
    "C29_remove_index",
    "C29_clear_sequence"
   ],
   "note": ""
  },
  {
   "property": "C30",
   "status": "proved",
   "theorems": [
    "C30_live",
    "C30_count"
   ],
   "note": ""
  },
  {
   "property": "C31",
   "status": "proved",
   "theorems": [
    "C31_built",
    "C31_layout",
    "C31_first_item_refuted",
    "C31_start_refuted"
   ],
   "note": "Every plan of calls in an empty document prints the two-space layout of a tree with its data, and every tree in that layout reads back. The two exceptions in the statement are real: the refuted theorems give witnesses."
  },
  {
   "property": "C32",
   "status": "partial",
   "theorems": [
    "C32_keys_partial",
    "C32_last_empty",
    "C32_last_key_refuted"
   ],
   "note": "Proved for every key but the last; false for the last, with a witness. C32_last_empty covers the lines whose last key has no value: that value is the empty string, the other keys are unaffected."
  },
  {
   "property": "C33",
   "status": "proved",
   "theorems": [
    "C33_printed",
    "C33_values",
    "utf8_spec"
   ],
   "note": "Under the assumption that no two stored strings have the same hash."
  },
  {
   "property": "C34",
   "status": "proved",
   "theorems": [
    "C34_flow_list"
   ],
   "note": ""
  },
  {
   "property": "C35",
   "status": "proved",
   "theorems": [
    "C35_grammar"
   ],
   "note": ""
  },
  {
   "property": "C36",
   "status": "proved",
   "theorems": [
    "C36_presents",
    "C36_gathers"
   ],
   "note": "Under the stated assumption on numbers, which C23 shows to be needed; the 128-bit types end in an error of serde. Float parsing is an arbitrary function."
  },
  {
   "property": "C37",
   "status": "proved",
   "theorems": [
    "C37_text"
   ],
   "note": ""
  },
  {
   "property": "C38",
   "status": "proved",
   "theorems": [
    "C38_session",
    "C38_set",
    "C38_insert",
    "C38_push",
    "C38_remove",
    "C38_remove_item"
   ],
   "note": "The conditions of the statement are the definitions of Session.v: tidy, fitting, room_key, room_item, closes_key, closes_item, clears, room_block. C39 shows why they are needed."
  },
  {
   "property": "C39",
   "status": "partial",
   "theorems": [
    "C39_session_partial",
    "C39_set_empty_refuted",
    "C39_set_comment_refuted",
    "C39_remove_comment_refuted",
    "C39_insert_comment_refuted",
    "C39_push_comment_refuted",
    "C39_set_after_comment_refuted",
    "C39_insert_block_scalar_refuted",
    "C39_clear_refuted",
    "C39_clear_flow_refuted",
    "C39_remove_directive_refuted",
    "C39_remove_marker_refuted",
    "C39_remove_last_refuted",
    "C39_empty_string_refuted",
    "C39_flow_string_refuted",
    "C39_flow_bool_refuted",
    "C39_flow_make_refuted",
    "C39_key_refuted",
    "C39_header_refuted"
   ],
   "note": "False as stated: each _refuted theorem gives a text and a call after which the text is refused or read as other data. It holds for the sessions of C38 (C39_session_partial)."
  },
  {
   "property": "C40",
   "status": "proved",
   "theorems": [
    "C40_trimmed",
    "trim_spec"
   ],
   "note": "For block scalars at the start of a text, followed by newlines only."
  },
  {
   "property": "C41",
   "status": "proved",
   "theorems": [
    "C41_shown",
    "C41_valid",
    "lossy_spec"
   ],
   "note": "Under the assumption that no two stored strings have the same hash."
  },
  {
   "property": "C42",
   "status": "proved",
   "theorems": [
    "C42_points_at",
    "parse_located"
   ],
   "note": "For the start of the span of BadSequenceTerminator under the assumption that no two strings have the same hash."
  },
  {
   "property": "C43",
   "status": "proved",
   "theorems": [
    "C43_shows",
    "C43_nothing_lost"
   ],
   "note": ""
  },
  {
   "property": "C44",
   "status": "proved",
   "theorems": [
    "C44_scalars",
    "C44_keys",
    "C44_definite",
    "parse_lexed"
   ],
   "note": "Under the assumption that no two stored strings have the same hash."
  },
  {
   "property": "C45",
   "status": "proved",
   "theorems": [
    "C45_raw",
    "C45_source"
   ],
   "note": "Under the assumption that no two stored strings have the same hash."
  },
  {
   "property": "C46",
   "status": "proved",
   "theorems": [
    "C46_any_mut"
   ],
   "note": "Under the assumption that no two stored strings have the same hash."
  },
  {
   "property": "C47",
   "status": "proved",
   "theorems": [
    "C47_exact",
    "C47_accepts",
    "C47_means",
    "C47_one",
    "C47_refused",
    "C47_column",
    "means_sound",
    "means_complete"
   ],
   "note": "Data shown: under the assumption that no two stored strings have the same hash."
  },
  {
   "property": "C48",
   "status": "proved",
   "theorems": [
    "C48_hash",
    "C48_writes",
    "C48_outcome",
    "C48_edits"
   ],
   "note": "Data shown: under the assumption that no two stored strings have the same hash."
  },
  {
   "property": "C49",
   "status": "proved",
   "theorems": [
    "C49_exact",
    "C49_writes",
    "C49_one",
    "C49_means",
    "C49_identity",
    "printed_sound",
    "printed_complete"
   ],
   "note": "Under the assumption that no two stored strings have the same hash."
  },
  {
   "property": "C50",
   "status": "proved",
   "theorems": [
    "C50_exact",
    "C50_stuck",
    "C50_error",
    "C50_reports",
    "C50_total",
    "C50_one",
    "fails_sound",
    "fails_complete"
   ],
   "note": "The start of the span of a bad sequence terminator: for hashes without collision."
  },
  {
   "property": "C51",
   "status": "proved",
   "theorems": [
    "C51_calls",
    "C51_display_calls",
    "C51_value_calls",
    "C51_beginning",
    "C51_display_beginning",
    "C51_room",
    "C51_display_room",
    "C51_fine",
    "C51_error",
    "C51_cut"
   ],
   "note": ""
  },
  {
   "property": "C52",
   "status": "proved",
   "theorems": [
    "C52_read",
    "C52_refused",
    "C52_length",
    "C52_write",
    "C52_display",
    "C52_replace",
    "C52_brackets",
    "C52_no_bound_refuted"
   ],
   "note": ""
  },
  {
   "property": "C53",
   "status": "proved",
   "theorems": [
    "C53_takes",
    "C53_restore",
    "C53_start",
    "C53_same",
    "C53_places",
    "C53_answers",
    "C53_calls",
    "C53_later",
    "C53_play"
   ],
   "note": "Not modelled: the format itself. The derived impls are taken to copy fields."
  },
  {
   "property": "C54",
   "status": "proved",
   "theorems": [
    "C54_parse",
    "C54_call",
    "C54_peak",
    "C54_built",
    "C54_snapshot",
    "C54_strings_stay",
    "C54_strings_unbounded"
   ],
   "note": ""
  },
  {
   "property": "C55",
   "status": "proved",
   "theorems": [
    "C55_value",
    "C55_mapping",
    "C55_sequence",
    "C55_display",
    "C55_any",
    "C55_dead",
    "C55_document",
    "C55_id",
    "C55_error"
   ],
   "note": "Debug of BStr (crate bstr) is a parameter; the builders of core::fmt are modelled in Debug.v."
  },
  {
   "property": "C56",
   "status": "proved",
   "theorems": [
    "C56_text",
    "C56_slots",
    "C56_built",
    "C56_call",
    "C56_calls",
    "C56_any",
    "C56_tight"
   ],
   "note": ""
  },
  {
   "property": "C57",
   "status": "proved",
   "theorems": [
    "C57_runs",
    "C57_commute",
    "C57_last_set",
    "C57_clear",
    "C57_last_insert",
    "C57_undo_insert",
    "C57_undo_push",
    "C57_make_again"
   ],
   "note": ""
  },
  {
   "property": "C58",
   "status": "proved",
   "theorems": [
    "C58_maps",
    "C58_seqs",
    "C58_lead"
   ],
   "note": ""
  },
  {
   "property": "C59",
   "status": "proved",
   "theorems": [
    "C59_shift",
    "C59_keys",
    "C59_dashes"
   ],
   "note": ""
  },
  {
   "property": "C60",
   "status": "partial",
   "theorems": [
    "C60_same_refuted",
    "C60_crlf_partial",
    "C60_accepted",
    "C60_numbers"
   ],
   "note": "False as given: null, booleans and words at the end of a line are read as strings that end with the CR, and strings and keys over several lines have a CR before newlines. Proved: the text is accepted exactly if the text without CR is, and the data differs in nothing else."
  },
  {
   "property": "C61",
   "status": "proved",
   "theorems": [
    "C61_accepted",
    "C61_same",
    "C61_hang",
    "C61_error",
    "C61_errors"
   ],
   "note": "For all texts, accepted or not: same data, output, error and termination."
  },
  {
   "property": "C62",
   "status": "proved",
   "theorems": [
    "C62_accepted",
    "C62_same",
    "C62_value",
    "C62_hang",
    "C62_error",
    "C62_errors"
   ],
   "note": "For all texts that end with a newline, accepted or not; data, error and termination. What is written back is not compared here (C49)."
  },
  {
   "property": "C63",
   "status": "proved",
   "theorems": [
    "C63_hang",
    "C63_error",
    "C63_start_refuted",
    "C63_errors"
   ],
   "note": "For all texts. The start of the span of a missing bracket of a flow sequence is left out: C63_start_refuted has a text where it is not at the same byte."
  },
  {
   "property": "C64",
   "status": "proved",
   "theorems": [
    "C64_accepted",
    "C64_data",
    "C64_same",
    "C64_hang",
    "C64_error",
    "C64_start_refuted",
    "C64_errors"
   ],
   "note": "For all texts, accepted or not; data, error and termination. The start of the span of a missing bracket of a flow sequence is left out: C64_start_refuted has a text where it does not move with its byte."
  },
  {
   "property": "C65",
   "status": "proved",
   "theorems": [
    "C65_accepted",
    "C65_data",
    "C65_same",
    "C65_hang",
    "C65_error"
   ],
   "note": "For all texts, accepted or not; data, written text, error with its span, and termination."
  },
  {
   "property": "C66",
   "status": "proved",
   "theorems": [
    "C66_accepted",
    "C66_data",
    "C66_same",
    "C66_hang",
    "C66_error"
   ],
   "note": "For all texts, accepted or not; data, written text, error with its span, and termination."
  }
 ]
}