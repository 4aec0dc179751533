{
 "claims": [
  {
   "property": "C01",
   "status": "proved",
   "theorems": [
    "C01_row_constructor",
    "C01_row_from_text"
   ],
   "note": ""
  },
  {
   "property": "C02",
   "status": "proved",
   "theorems": [
    "C02_multiplication"
   ],
   "note": ""
  },
  {
   "property": "C03",
   "status": "proved",
   "theorems": [
    "C03_assoc",
    "C03_identity_r",
    "C03_identity_l",
    "C03_inverse",
    "C03_division",
    "C03_division_cancels",
    "C03_rounds"
   ],
   "note": ""
  },
  {
   "property": "C04",
   "status": "proved",
   "theorems": [
    "C04_apply_change",
    "C04_change_is_its_row",
    "C04_twice"
   ],
   "note": ""
  },
  {
   "property": "C05",
   "status": "proved",
   "theorems": [
    "C05_api_changes_wf",
    "C05_pn_total",
    "C05_places_total",
    "C05_256_refuted"
   ],
   "note": "up to 255 bells; at 256 bells the property is refuted (C05_256_refuted)"
  },
  {
   "property": "C06",
   "status": "proved",
   "theorems": [
    "C06_present",
    "C06_absent",
    "C06_end_iterator_ub",
    "C06_throw"
   ],
   "note": ""
  },
  {
   "property": "C07",
   "status": "proved",
   "theorems": [
    "C07_print_parse",
    "C07_places_rebuild"
   ],
   "note": ""
  },
  {
   "property": "C08",
   "status": "proved",
   "theorems": [
    "C08_places",
    "C08_findplace",
    "C08_findswap",
    "C08_bell_follows_row",
    "C08_reverse_mirrors",
    "C08_reverse_involution",
    "C08_internal",
    "C08_sign_of_row",
    "C08_have_same_places"
   ],
   "note": ""
  },
  {
   "property": "C09",
   "status": "proved",
   "theorems": [
    "C09_print_read",
    "C09_read_char_accepts",
    "C09_to_char",
    "C09_read_char_total"
   ],
   "note": ""
  },
  {
   "property": "C10",
   "status": "proved",
   "theorems": [
    "C10_print_parse",
    "C10_ostream_parse"
   ],
   "note": ""
  },
  {
   "property": "C11",
   "status": "proved",
   "theorems": [
    "C11_order",
    "C11_order_any",
    "C11_order_overflow_refuted",
    "C11_sign_mul",
    "C11_sign_rounds",
    "C11_sign_exchange"
   ],
   "note": "order always returns on at most 58 bells; on more it is right whenever it returns; overflow exhibited on 129 bells"
  },
  {
   "property": "C12",
   "status": "proved",
   "theorems": [
    "C12_cycles",
    "C12_cycle_size"
   ],
   "note": ""
  },
  {
   "property": "C13",
   "status": "proved",
   "theorems": [
    "C13_power",
    "C13_power_refuted",
    "C13_int_min_refuted"
   ],
   "note": "proved wherever it holds: every int exponent but INT_MIN on at most 18 bells, |n| <= bells^2 on more; refuted beyond: from 19 bells a reachable exponent recurses forever, INT_MIN is signed overflow"
  },
  {
   "property": "C14",
   "status": "proved",
   "theorems": [
    "C14_are_conjugate",
    "C14_conjugator",
    "C14_conjugator_large"
   ],
   "note": ""
  },
  {
   "property": "C15",
   "status": "proved",
   "theorems": [
    "C15_queens",
    "C15_kings",
    "C15_tittums",
    "C15_reverse_rounds",
    "C15_reverse_rounds3",
    "C15_reverse_rounds3_ub",
    "C15_cyclic",
    "C15_cyclic_row",
    "C15_pblh"
   ],
   "note": ""
  },
  {
   "property": "C16",
   "status": "proved",
   "theorems": [
    "C16_ispblh",
    "C16_ispblh_auto"
   ],
   "note": ""
  },
  {
   "property": "C17",
   "status": "proved",
   "theorems": [
    "C17_parse",
    "C17_total",
    "C17_method"
   ],
   "note": "up to 255 bells; the terminating NUL is what *last reads"
  },
  {
   "property": "C18",
   "status": "proved",
   "theorems": [
    "C18_roundtrip",
    "C18_omit_lh",
    "C18_empty_refuted"
   ],
   "note": "refuted for the empty method with M_OMIT_LH (C18_empty_refuted)"
  },
  {
   "property": "C19",
   "status": "proved",
   "theorems": [
    "C19_palindromic_about",
    "C19_issym",
    "C19_symmetry_point",
    "C19_ispalindromic",
    "C19_isdouble",
    "C19_bell_palindromic_about",
    "C19_bell_issym",
    "C19_bell_symmetry_point",
    "C19_empty_refuted",
    "C19_bell_ispalindromic"
   ],
   "note": "bell versions for hunt bells; an odd length is a failed assertion there, and the empty method is undefined (C19_empty_refuted)"
  },
  {
   "property": "C20",
   "status": "proved",
   "theorems": [
    "C20_lh",
    "C20_huntbells",
    "C20_leads",
    "C20_leads_if_returned",
    "C20_isregular",
    "C20_push_back"
   ],
   "note": "leads always returns on at most 58 bells; on more it is right whenever it returns"
  },
  {
   "property": "C21",
   "status": "proved",
   "theorems": [
    "C21_nth_then_position",
    "C21_position_then_nth",
    "C21_position_order",
    "C21_short_row",
    "C21_reject",
    "C21_size",
    "C21_wraps_refuted"
   ],
   "note": "nth_row_of_extent up to 13 working bells, position_in_extent up to 20; beyond that refuted (C21_wraps_refuted)"
  },
  {
   "property": "C22",
   "status": "proved",
   "theorems": [
    "C22_sign_of_nth",
    "C22_sign_of_position",
    "C22_incourse_nth_then_position",
    "C22_incourse_position_then_nth"
   ],
   "note": ""
  },
  {
   "property": "C23",
   "status": "proved",
   "theorems": [
    "C23_visits_extent",
    "C23_visits_incourse",
    "C23_step",
    "C23_back",
    "C23_back_from_end_refuted",
    "C23_order"
   ],
   "note": "decrementing the end iterator is refuted: it is at the last row but still compares equal to end (C23_back_from_end_refuted)"
  },
  {
   "property": "C24",
   "status": "proved",
   "theorems": [
    "C24_visits_changes"
   ],
   "note": ""
  },
  {
   "property": "C25",
   "status": "proved",
   "theorems": [
    "C25_generate",
    "C25_generate1",
    "C25_generate2",
    "C25_generated_least",
    "C25_equal",
    "C25_any_generators"
   ],
   "note": ""
  },
  {
   "property": "C26",
   "status": "proved",
   "theorems": [
    "C26_left_least",
    "C26_right_least",
    "C26_left_same",
    "C26_right_same",
    "C26_rounds_labels_group",
    "C26_other_bells_refuted"
   ],
   "note": "right labels: for rows on the number of bells of the group, and groups of fewer than 109641728 rows or with orbits of at most 12 bells (32-bit factorials); refuted for rows on another number of bells (C26_other_bells_refuted)"
  },
  {
   "property": "C27",
   "status": "proved",
   "theorems": [
    "C27_conjugate",
    "C27_even_subgroup",
    "C27_direct_product",
    "C27_invariants",
    "C27_symmetric",
    "C27_alternating",
    "C27_trivial",
    "C27_cyclic",
    "C27_dihedral",
    "C27_cyclic_r",
    "C27_dihedral_r_odd",
    "C27_dihedral_r_even_refuted"
   ],
   "note": "conjugating by a row on more bells than the group is outside the statement (the object then has rows on more bells than it says); dihedral_r on an even number of working bells is shown to be only the cyclic group, against the header (C27_dihedral_r_even_refuted)"
  },
  {
   "property": "C28",
   "status": "proved",
   "theorems": [
    "C28_plain",
    "C28_part_ends",
    "C28_size",
    "C28_rounds",
    "C28_refuses",
    "C28_square",
    "C28_refuted"
   ],
   "note": "Proved for all row sets closed under the groups and all histories of columns, with the C++ assert as an outcome. A product that is not in the set silently gives index 0 (C28_plain). Refuted parts: a repeated row makes the square table read out of range, and with a post group whose cosets are only partly present a product can land in another coset (C28_refuted)."
  },
  {
   "property": "C29",
   "status": "proved",
   "theorems": [
    "C29_counts",
    "C29_truth",
    "C29_add_result",
    "C29_remove",
    "C29_disabled",
    "C29_failinfo",
    "C29_failinfo_history",
    "C29_failinfo_after_remove_refuted"
   ],
   "note": ""
  },
  {
   "property": "C30",
   "status": "proved",
   "theorems": [
    "C30_branch_counts",
    "C30_branch_truth",
    "C30_branch_failinfo",
    "C30_branch_remove",
    "C30_branch_of_false_refuted"
   ],
   "note": ""
  },
  {
   "property": "C31",
   "status": "proved",
   "theorems": [
    "C31_prove",
    "C31_full_failinfo_refuted"
   ],
   "note": ""
  },
  {
   "property": "C32",
   "status": "proved",
   "theorems": [
    "C32_methods",
    "C32_method",
    "C32_rows",
    "C32_group",
    "C32_half_lead",
    "C32_half_lead_refuted",
    "C32_method_rows"
   ],
   "note": "tables of whole leads; half_lead_only given with methods is shown to compare only a quarter of each lead and so to miss falseness (C32_half_lead, C32_half_lead_refuted); a method of one change with that flag is outside the statement; symbols of falseness groups are not modelled"
  },
  {
   "property": "C33",
   "status": "proved",
   "theorems": [
    "C33_false_courses",
    "C33_diverges_refuted"
   ],
   "note": "when the treble is the only hunt bell and the others form one cycle; without that the constructor can loop forever (C33_diverges_refuted)"
  },
  {
   "property": "C34",
   "status": "proved",
   "theorems": [
    "C34_set_start",
    "C34_size",
    "C34_block_from_row",
    "C34_block_from_rounds",
    "C34_block_no_changes",
    "C34_recalculate",
    "C34_one_change_refuted"
   ],
   "note": ""
  },
  {
   "property": "C35",
   "status": "proved",
   "theorems": [
    "C35_touch_iteration",
    "C35_positions",
    "C35_no_head",
    "C35_empty_child_refuted",
    "C35_zero_times_refuted"
   ],
   "note": ""
  },
  {
   "property": "C36",
   "status": "proved",
   "theorems": [
    "C36_ends",
    "C36_sound",
    "C36_iterable",
    "C36_last",
    "C36_refuted_false_lead",
    "C36_refuted_moving_treble",
    "C36_refuted_one_change",
    "C36_refuted_empty"
   ],
   "note": "refuted outside the hypotheses: a lead with a repeated row gives false touches, so does a method whose treble does not lead at the lead end (only false lead heads fixing the treble are looked for), touches of a one-change method cannot be iterated over, an empty method is undefined (C36_refuted_*)"
  },
  {
   "property": "C37",
   "status": "proved",
   "theorems": [
    "C37_complete",
    "C37_complete_up_to_rotation",
    "C37_in_order",
    "C37_rotations",
    "C37_refuted_twice",
    "C37_refuted_rotations"
   ],
   "note": "that each touch is given once (or once up to rotation) is not claimed: Plain Bob Minor with bobs and singles refutes it (C37_refuted_twice, C37_refuted_rotations)"
  },
  {
   "property": "C38",
   "status": "proved",
   "theorems": [
    "C38_accepts",
    "C38_add",
    "C38_counts",
    "C38_counts_general",
    "C38_row",
    "C38_meaning",
    "C38_runs",
    "C38_crus",
    "C38_get_count",
    "C38_get_score",
    "C38_refuted_whole_row",
    "C38_refuted_far_run",
    "C38_refuted_once",
    "C38_refuted_too_long",
    "C38_refuted_clear",
    "C38_refuted_set_bells"
   ],
   "note": "for the patterns named in the statement; outside it refuted: a leading * before all the bells never matches, a short run between *s is missed far from the front (b > 2n+4), [55] and *?* count a row several times, a pattern longer than the rows matches with a byte read past the row, clear keeps its entries, set_bells does not rebuild the tree (C38_refuted_*)"
  },
  {
   "property": "C39",
   "status": "proved",
   "theorems": [
    "C39_count",
    "C39_listed",
    "C39_exact",
    "C39_unspecified",
    "C39_possible_score",
    "C39_refuted_sets",
    "C39_refuted_any",
    "C39_refuted_long",
    "C39_refuted_twice",
    "C39_refuted_later",
    "C39_refuted_spelling"
   ],
   "note": "for the patterns named in the statement; outside it refuted: *[345]* and *?* (only pairwise overlaps are subtracted), patterns longer than the rows, a bell named twice, a choice named later, a bell spelt in two ways (C39_refuted_*)"
  },
  {
   "property": "C40",
   "status": "proved",
   "theorems": [
    "C40_hcf",
    "C40_lcm",
    "C40_factorial",
    "C40_fibonacci",
    "C40_ipower",
    "C40_is_prime",
    "C40_next_prime"
   ],
   "note": ""
  },
  {
   "property": "C41",
   "status": "proved",
   "theorems": [
    "C41_reduce",
    "C41_scale",
    "C41_read",
    "C41_print_read",
    "C41_small_negative_refuted",
    "C41_zero_refuted",
    "C41_zero_denominator_refuted",
    "C41_write_nul_refuted"
   ],
   "note": ""
  },
  {
   "property": "C42",
   "status": "proved",
   "theorems": [
    "C42_shared_pointer",
    "C42_reset_oom_refuted"
   ],
   "note": ""
  },
  {
   "property": "C43",
   "status": "proved",
   "theorems": [
    "C43_cow_pointer"
   ],
   "note": ""
  },
  {
   "property": "C44",
   "status": "proved",
   "theorems": [
    "C44_landau",
    "C44_full",
    "C44_code",
    "C44_overflow"
   ],
   "note": "n up to 119; for larger n the value cannot fit the 32-bit result (C44_overflow). C44_landau and C44_full take any bound on the primes; C44_code shows that the bound the code computes, up to a floating-point error of 1/100, is enough (this one uses the axioms of the real numbers)"
  },
  {
   "property": "C45",
   "status": "proved",
   "theorems": [
    "C45_isplain",
    "C45_hasdodges",
    "C45_hasplaces",
    "C45_maxblows",
    "C45_maxblows_bound",
    "C45_maxblows_none_refuted"
   ],
   "note": "a method with no places gets maxblows -1 rather than 1 (C45_maxblows_none_refuted)"
  },
  {
   "property": "C46",
   "status": "proved",
   "theorems": [
    "C46_class",
    "C46_one_kind",
    "C46_kind",
    "C46_cross_sections",
    "C46_one_bell_refuted",
    "C46_long_refuted",
    "C46_rotation_refuted"
   ],
   "note": "leads of fewer than 512 changes; longer ones wrap the char counters (C46_long_refuted), one bell before 2019 reads past the lead head (C46_one_bell_refuted), and cross sections are counted from the start of the lead, so the same method started a change later changes class (C46_rotation_refuted)"
  },
  {
   "property": "C47",
   "status": "proved",
   "theorems": [
    "C47_rows",
    "C47_changes",
    "C47_groups"
   ],
   "note": ""
  },
  {
   "property": "C48",
   "status": "proved",
   "theorems": [
    "C48_find",
    "C48_find_at",
    "C48_resize_up",
    "C48_resize_down",
    "C48_isrounds"
   ],
   "note": ""
  },
  {
   "property": "C49",
   "status": "proved",
   "theorems": [
    "C49_code",
    "C49_z",
    "C49_determines",
    "C49_empty_ub"
   ],
   "note": "a method on no bells is undefined behaviour (C49_empty_ub)"
  },
  {
   "property": "C50",
   "status": "proved",
   "theorems": [
    "C50_ends",
    "C50_same_as_basic",
    "C50_sound",
    "C50_complete",
    "C50_complete_up_to_rotation",
    "C50_in_order",
    "C50_nonround",
    "C50_range",
    "C50_any_length",
    "C50_refuted_old",
    "C50_refuted_old_range",
    "C50_refuted_no_changes"
   ],
   "note": "the old constructor without a range gives no touches at all and the one with a range reads an uninitialised member; a range in changes for a method without changes divides by zero (C50_refuted_*)"
  },
  {
   "property": "C51",
   "status": "proved",
   "theorems": [
    "C51_finds",
    "C51_complete",
    "C51_sound",
    "C51_refuted_self",
    "C51_refuted_odd",
    "C51_refuted_fewer_bells"
   ],
   "note": "that every touch given is true in all its parts is refuted: a lead after the first that meets itself in another part goes unnoticed, odd part ends of even leads are not looked at when mutual truth is enough, part ends on fewer bells than the method escape the check (C51_refuted_*)"
  },
  {
   "property": "C52",
   "status": "proved",
   "theorems": [
    "C52_title",
    "C52_classname",
    "C52_stagename",
    "C52_stagename_refuted",
    "C52_bells",
    "C52_class",
    "C52_name_refuted",
    "C52_classname_ub"
   ],
   "note": "stages of more than seven digits are cut off (C52_stagename_refuted), and the title does not tell the name apart from the class words (C52_name_refuted); a class code with no class is an out-of-range table index (C52_classname_ub)"
  },
  {
   "property": "C53",
   "status": "proved",
   "theorems": [
    "C53_base_name",
    "C53_treble_refuted",
    "C53_little_refuted",
    "C53_nameless_refuted",
    "C53_other",
    "C53_stage_twice_refuted"
   ],
   "note": "refuted for Treble Bob and Treble Place (\"Treble\" is left in the name), for little hybrids, for names with the stage word in them; a title without a name reads before the beginning of a string (C53_*_refuted)"
  },
  {
   "property": "C54",
   "status": "proved",
   "theorems": [
    "C54_read",
    "C54_meaning",
    "C54_read_file",
    "C54_roundtrip",
    "C54_roundtrip_plain",
    "C54_methods",
    "C54_file_bom_refuted",
    "C54_crlf_refuted",
    "C54_zero"
   ],
   "note": "a file with a byte order mark cannot be read because the file is rewound in front of it (C54_file_bom_refuted); a blank CRLF line is an entry (C54_crlf_refuted)"
  },
  {
   "property": "C55",
   "status": "proved",
   "theorems": [
    "C55_read",
    "C55_meaning",
    "C55_method",
    "C55_method_z",
    "C55_method_plus",
    "C55_crlf_refuted",
    "C55_no_header_refuted"
   ],
   "note": "a blank line in a file with carriage returns ends the library (C55_crlf_refuted); the number in the file name is not used, so that without a header there are 0 bells (C55_no_header_refuted)"
  },
  {
   "property": "C56",
   "status": "proved",
   "theorems": [
    "C56_order",
    "C56_history",
    "C56_loop",
    "C56_clear_ub",
    "C56_range",
    "C56_range_refuted",
    "C56_empty_refuted"
   ],
   "note": "clear during a loop is undefined (C56_clear_ub); append of a range gives the number given, not the number that came in (C56_range_refuted); methods without changes on different bells are one (C56_empty_refuted)"
  },
  {
   "property": "C57",
   "status": "proved",
   "theorems": [
    "C57_load",
    "C57_find",
    "C57_find_title",
    "C57_looked",
    "C57_dir",
    "C57_path",
    "C57_open",
    "C57_root_refuted",
    "C57_multi",
    "C57_written",
    "C57_written_found",
    "C57_hidden_refuted"
   ],
   "note": "an empty directory in the path is taken as the root (C57_root_refuted); an entry with bad place notation hides those after it from find (C57_hidden_refuted)"
  },
  {
   "property": "C58",
   "status": "proved",
   "theorems": [
    "C58_verdict",
    "C58_failure",
    "C58_break_refuted"
   ],
   "note": "a break outside all loops ends the proof without a verdict and without failure (C58_break_refuted)"
  },
  {
   "property": "C59",
   "status": "proved",
   "theorems": [
    "C59_test",
    "C59_string"
   ],
   "note": ""
  },
  {
   "property": "C60",
   "status": "proved",
   "theorems": [
    "C60_composition",
    "C60_short_rounds"
   ],
   "note": "rounds given on fewer bells than the number of bells never comes round (C60_short_rounds)"
  },
  {
   "property": "C61",
   "status": "proved",
   "theorems": [
    "C61_block",
    "C61_replace_at",
    "C61_replace_end"
   ],
   "note": ""
  },
  {
   "property": "C62",
   "status": "proved",
   "theorems": [
    "C62_quote",
    "C62_hex",
    "C62_unambiguous"
   ],
   "note": ""
  },
  {
   "property": "C63",
   "status": "proved",
   "theorems": [
    "C63_even_limit",
    "C63_odd_refuted",
    "C63_type_refuted"
   ],
   "note": "the count goes up by two for each node and is compared for equality, so that an odd limit stops nothing (C63_odd_refuted); looking for the type of a symbol is not counted and need not end (C63_type_refuted)"
  },
  {
   "property": "C64",
   "status": "proved",
   "theorems": [
    "C64_reading",
    "C64_unambiguous",
    "C64_refused",
    "C64_empty_first"
   ],
   "note": "an empty first alternative is kept and always taken, so that { ; a } does nothing (C64_empty_first)"
  },
  {
   "property": "C65",
   "status": "proved",
   "theorems": [
    "C65_ends",
    "C65_brackets",
    "C65_lax_refuted",
    "C65_ignored_refuted"
   ],
   "note": "after echo, save, ++ and -- and their argument anything without operators is accepted and ignored, even unmatched brackets (C65_lax_refuted, C65_ignored_refuted)"
  },
  {
   "property": "C66",
   "status": "proved",
   "theorems": [
    "C66_write"
   ],
   "note": ""
  },
  {
   "property": "C67",
   "status": "proved",
   "theorems": [
    "C67_right",
    "C67_precedence",
    "C67_minus_refuted",
    "C67_number",
    "C67_number_refuted"
   ],
   "note": "10 - 3 - 2 is 9 (C67_minus_refuted); 4294967295 x repeats x for ever (C67_number_refuted)"
  },
  {
   "property": "C68",
   "status": "proved",
   "theorems": [
    "C68_script",
    "C68_unique",
    "C68_total",
    "C68_readable",
    "C68_divide_twice_refuted",
    "C68_plus_refuted"
   ],
   "note": "20/2/5 is read as 20 and 5 with the pattern 2 between them (C68_divide_twice_refuted); n +1 is read as place notation (C68_plus_refuted)"
  },
  {
   "property": "C69",
   "status": "proved",
   "theorems": [
    "C69_commands",
    "C69_tokens",
    "C69_total",
    "C69_comments",
    "C69_stuck",
    "C69_unreadable"
   ],
   "note": "a script with an unreadable line can never be got past that line: every request for a command fails at the same token (C69_stuck), so that an interactive session repeats the error for ever"
  },
  {
   "property": "C70",
   "status": "proved",
   "theorems": [
    "C70_statement",
    "C70_unique",
    "C70_layout",
    "C70_total",
    "C70_prove",
    "C70_define",
    "C70_rows_range_refuted",
    "C70_reserved",
    "C70_end_string_refuted"
   ],
   "note": "the range form of rows, as in 5000 to 5100 rows, is always refused (C70_rows_range_refuted); six names cannot be defined (C70_reserved); a string of the letters end ends the script (C70_end_string_refuted)"
  },
  {
   "property": "C71",
   "status": "proved",
   "theorems": [
    "C71_status",
    "C71_end",
    "C71_record"
   ],
   "note": "a proof which is stopped by break outside all loops does not count as a failure (see C58_break_refuted)"
  },
  {
   "property": "C72",
   "status": "proved",
   "theorems": [
    "C72_definitions",
    "C72_settled",
    "C72_first",
    "C72_first_stale_refuted"
   ],
   "note": "a touch that is defined twice is proved by default as it was defined first (C72_first_stale_refuted)"
  },
  {
   "property": "C73",
   "status": "proved",
   "theorems": [
    "C73_bells",
    "C73_import",
    "C73_circular",
    "C73_import_rounds_refuted"
   ],
   "note": "an import for fewer bells loses the rounds in force (C73_import_rounds_refuted)"
  },
  {
   "property": "C74",
   "status": "proved",
   "theorems": [
    "C74_statement",
    "C74_script",
    "C74_deterministic",
    "C74_if",
    "C74_end_in_block_refuted"
   ],
   "note": "end inside a block dereferences a null pointer when it is reached (C74_end_in_block_refuted)"
  },
  {
   "property": "C75",
   "status": "proved",
   "theorems": [
    "C75_script"
   ],
   "note": ""
  },
  {
   "property": "C76",
   "status": "proved",
   "theorems": [
    "C76_notation",
    "C76_reading",
    "C76_from_the_back",
    "C76_range",
    "C76_total",
    "C76_no_bells",
    "C76_braces_refuted"
   ],
   "note": "{-2147483648} overflows, {257} is the treble and a range may not end after the 33rd bell (C76_braces_refuted)"
  },
  {
   "property": "C77",
   "status": "proved",
   "theorems": [
    "C77_transposition",
    "C77_printed",
    "C77_total",
    "C77_rung",
    "C77_reverse_refuted",
    "C77_ranges_refuted"
   ],
   "note": "~ does not undo a transposition (C77_reverse_refuted); ranges and {N} are not for transpositions (C77_ranges_refuted)"
  },
  {
   "property": "C78",
   "status": "proved",
   "theorems": [
    "C78_accepted",
    "C78_test",
    "C78_star",
    "C78_total",
    "C78_case_refuted"
   ],
   "note": "for the pattern language of the library as specified for music: small letters are refused though they name bells elsewhere (C78_case_refuted)"
  },
  {
   "property": "C79",
   "status": "proved",
   "theorems": [
    "C79_prove"
   ],
   "note": ""
  },
  {
   "property": "C80",
   "status": "proved",
   "theorems": [
    "C80_rows",
    "C80_written",
    "C80_unfit",
    "C80_unique",
    "C80_are_rows",
    "C80_size",
    "C80_inverse",
    "C80_total",
    "C80_answers",
    "C80_nested_refuted",
    "C80_conjugates_refuted",
    "C80_difference_refuted"
   ],
   "note": "for expressions in which the left operand of an operator between two sets can be gone through again; otherwise rows are lost: sets inside sets (C80_nested_refuted), conjugates by a set (C80_conjugates_refuted); and a difference of single rows ends the set it is in (C80_difference_refuted)"
  },
  {
   "property": "C81",
   "status": "proved",
   "theorems": [
    "C81_reading",
    "C81_brackets",
    "C81_unambiguous",
    "C81_ends",
    "C81_tokens",
    "C81_negative",
    "C81_written"
   ],
   "note": "the parser has code for negative exponents, but no text reaches it with success (C81_negative): a^-1 is read as a difference and refused (C81_refused). Texts with $( or <( (rows from a command or a file) are not modelled."
  },
  {
   "property": "C82",
   "status": "proved",
   "theorems": [
    "C82_extent",
    "C82_positive",
    "C82_implies",
    "C82_cps",
    "C82_not_plain"
   ],
   "note": "the first test asserts that the treble plain hunts: for other methods it stops the program (C82_not_plain), though the search that uses it does not check."
  },
  {
   "property": "C83",
   "status": "proved",
   "theorems": [
    "C83_extent",
    "C83_lines",
    "C83_refused",
    "C83_no_bells"
   ],
   "note": "the number of bells is said to be required, but without it one empty line is written (C83_no_bells)."
  },
  {
   "property": "C84",
   "status": "proved",
   "theorems": [
    "C84_palindromic",
    "C84_mirror",
    "C84_glide",
    "C84_rotational",
    "C84_rotational_odd",
    "C84_rotational_wrong",
    "C84_empty",
    "C84_string",
    "C84_floating",
    "C84_third"
   ],
   "note": "for an odd number of changes methods without rotational symmetry are given an R (C84_rotational_wrong has one for every odd length), and a method without changes is a division by zero (C84_empty)."
  },
  {
   "property": "C85",
   "status": "proved",
   "theorems": [
    "C85_a_search_finds_just_the_methods_wanted",
    "C85_without_symmetry_they_come_in_order",
    "C85_no_bell_stays_too_long",
    "C85_no_bell_stays_too_long_in_a_palindrome",
    "C85_no_change_twice_running",
    "C85_a_filter_lets_through_the_methods_wanted",
    "C85_it_can_be_told",
    "C85_an_inverted_filter_lets_through_the_others",
    "C85_inverted_limit_refuted",
    "C85_search_and_filter_agree",
    "C85_three_symmetries_and_a_symmetric_middle_make_a_palindrome",
    "C85_blows_refuted",
    "C85_three_symmetries_refuted",
    "C85_start_row_refuted",
    "C85_rounds_refuted"
   ],
   "note": "for one part, with most tests of a change and of a whole method as parameters (any functions of what they look at). Found: an inverted filter lets one method too many or wrongly through when the limit is met, and then has no limit (C85_inverted_limit_refuted); with all three symmetries and no hunt bells methods without any palindromic symmetry are found (C85_three_symmetries_refuted); a start row together with a symmetry ends in an exception (C85_start_row_refuted); without a start row a lead that comes to rounds is taken to be true (C85_rounds_refuted); in palindromic methods with no hunt bells, or two, a bell can stay in a place for more blows than the limit (C85_blows_refuted)."
  },
  {
   "property": "C86",
   "status": "proved",
   "theorems": [
    "C86_a_splice_is_reported_just_when_there_is_one",
    "C86_methods_with_different_lead_ends_are_left_out",
    "C86_a_pivot_bell_says_which_method_is_rung",
    "C86_swapping_bells_say_which_method_is_rung",
    "C86_every_splice_in_a_library_is_shown",
    "C86_groups_are_the_methods_connected_by_splices",
    "C86_a_filter_keeps_methods_without_lead_splices",
    "C86_a_method_given_is_tested_against_the_library",
    "C86_odd_numbers_refuted",
    "C86_filter_for_another_number_refuted"
   ],
   "note": "for whole leads, with or without -i; a pivot bell reported for (n-2)!/4 leads without -i is not covered, nor two bells reported without -i. Odd numbers of leads are rounded down, so a splice reported as of one lead may be left out when splices of one lead are asked for (C86_odd_numbers_refuted); and with -l for another number the filter lets methods with lead splices through, though the code means to keep those (C86_filter_for_another_number_refuted). For half leads see C32_half_lead_refuted."
  },
  {
   "property": "C87",
   "status": "proved",
   "theorems": [
    "C87_lead_head",
    "C87_cyclic_lead_head",
    "C87_cyclic_half",
    "C87_rev_cyclic_half",
    "C87_treble_last",
    "C87_regular_half",
    "C87_second_stage_refuted"
   ],
   "note": "for lead heads with the hunt bells at home. The test of regular half lead heads keeps the lead head of the first number of bells it is called for: after that it refuses some on other numbers (C87_second_stage_refuted), which one run of the program does not meet."
  },
  {
   "property": "C88",
   "status": "proved",
   "theorems": [
    "C88_division_false",
    "C88_short_division_refuted",
    "C88_parity",
    "C88_parity_assert",
    "C88_adjacent_places",
    "C88_order",
    "C88_total",
    "C88_many_bells_refuted",
    "C88_coursing_order"
   ],
   "note": "the test of a division looks at nothing before its fourth change, so three changes that lead back to a row of it pass (C88_short_division_refuted); with a place above the 33rd two changes cannot be compared (C88_many_bells_refuted)."
  },
  {
   "property": "C89",
   "status": "proved",
   "theorems": [
    "C89_half_lead",
    "C89_offset_lead_head",
    "C89_offset_unique",
    "C89_quarter_lead",
    "C89_odd_lead"
   ],
   "note": "apps/methsearch/prog_args.cpp:727 writes !hunt_bells == 1 for hunt_bells != 1, so regular half leads with another number of hunt bells are not refused there; the option parser is not modelled here."
  }
 ]
}