{
 "claims": [
  {
   "property": "C01",
   "status": "proved",
   "theorems": [
    "C01_zdiv_zmod_euclid"
   ],
   "note": ""
  },
  {
   "property": "C02",
   "status": "partial",
   "theorems": [
    "C02_zdiv_floor_refuted",
    "C02_zdiv_floor_partial"
   ],
   "note": "full statement is false of the model (witness theorem); true part proved"
  },
  {
   "property": "C03",
   "status": "proved",
   "theorems": [
    "C03_literals_stay_wf",
    "C03_tokens_wf"
   ],
   "note": ""
  },
  {
   "property": "C04",
   "status": "proved",
   "theorems": [
    "C04_bv_nary",
    "C04_bv_unary",
    "C04_bv_divmod",
    "C04_bv_widths_differ"
   ],
   "note": ""
  },
  {
   "property": "C05",
   "status": "proved",
   "theorems": [
    "C05_concat_bits",
    "C05_extract_bits",
    "C05_extract_above",
    "C05_extract_empty",
    "C05_split_concat",
    "C05_concat_split"
   ],
   "note": ""
  },
  {
   "property": "C06",
   "status": "partial",
   "theorems": [
    "C06_extract_past_top_refuted",
    "C06_extract_only_past_top_refuted",
    "C06_extract_not_wider_partial"
   ],
   "note": "full statement is false of the model (witness theorem); true part proved"
  },
  {
   "property": "C07",
   "status": "partial",
   "theorems": [
    "C07_concat_width_refuted",
    "C07_concat_width_partial"
   ],
   "note": "full statement is false of the model (witness theorem); true part proved"
  },
  {
   "property": "C08",
   "status": "proved",
   "theorems": [
    "C08_string_text_roundtrip",
    "C08_printed"
   ],
   "note": ""
  },
  {
   "property": "C09",
   "status": "proved",
   "theorems": [
    "C09_concat",
    "C09_length",
    "C09_find",
    "C09_extract"
   ],
   "note": ""
  },
  {
   "property": "C10",
   "status": "partial",
   "theorems": [
    "C10_chars_lost_refuted",
    "C10_chars_kept_partial"
   ],
   "note": "full statement is false of the model (witness theorem); true part proved"
  },
  {
   "property": "C11",
   "status": "proved",
   "theorems": [
    "C11_rat_nary",
    "C11_rat_div",
    "C11_num_div",
    "C11_rat_unary",
    "C11_rat_gt",
    "C11_equal_values_same_literal"
   ],
   "note": ""
  },
  {
   "property": "C12",
   "status": "proved",
   "theorems": [
    "C12_to_z_to_q",
    "C12_code_points",
    "C12_to_bin",
    "C12_bin_roundtrip",
    "C12_to_bin_of_bv",
    "C12_identities"
   ],
   "note": ""
  },
  {
   "property": "C13",
   "status": "partial",
   "theorems": [
    "C13_to_str_out_of_range_refuted",
    "C13_to_str_partial"
   ],
   "note": "full statement is false of the model (witness theorem); true part proved"
  },
  {
   "property": "C14",
   "status": "partial",
   "theorems": [
    "C14_arity_safe_refuted",
    "C14_arity_safe_partial"
   ],
   "note": "full statement is false of the model (witness theorem); true part proved"
  },
  {
   "property": "C15",
   "status": "proved",
   "theorems": [
    "C15_result_category",
    "C15_mixed_never_evaluates",
    "C15_domain"
   ],
   "note": ""
  },
  {
   "property": "C16",
   "status": "partial",
   "theorems": [
    "C16_hex_print_refuted",
    "C16_empty_bin_print_refuted",
    "C16_print_read_partial"
   ],
   "note": "full statement is false of the model (witness theorem); true part proved"
  },
  {
   "property": "C17",
   "status": "proved",
   "theorems": [
    "C17_flags_exact",
    "C17_operators"
   ],
   "note": ""
  },
  {
   "property": "C18",
   "status": "proved",
   "theorems": [
    "C18_match_total",
    "C18_match_sound",
    "C18_match_complete",
    "C18_instance_unique"
   ],
   "note": ""
  },
  {
   "property": "C19",
   "status": "proved",
   "theorems": [
    "C19_first_case",
    "C19_stuck_arguments"
   ],
   "note": ""
  },
  {
   "property": "C20",
   "status": "proved",
   "theorems": [
    "C20_evaluate_exact",
    "C20_outcomes",
    "C20_unique",
    "C20_substitution",
    "C20_program_call",
    "C20_run_exact"
   ],
   "note": ""
  },
  {
   "property": "C21",
   "status": "partial",
   "theorems": [
    "C21_program_to_the_end_refuted",
    "C21_program_to_the_end_partial"
   ],
   "note": "full statement is false of the model (witness theorem); true part proved"
  },
  {
   "property": "C22",
   "status": "proved",
   "theorems": [
    "C22_ite_lazy",
    "C22_ite_stuck"
   ],
   "note": ""
  },
  {
   "property": "C23",
   "status": "proved",
   "theorems": [
    "C23_eq",
    "C23_is_eq",
    "C23_is_ok",
    "C23_requires"
   ],
   "note": ""
  },
  {
   "property": "C24",
   "status": "proved",
   "theorems": [
    "C24_length",
    "C24_cons",
    "C24_concat",
    "C24_nth",
    "C24_find",
    "C24_rev",
    "C24_singleton_elim",
    "C24_not_a_list"
   ],
   "note": ""
  },
  {
   "property": "C25",
   "status": "proved",
   "theorems": [
    "C25_erase",
    "C25_erase_all",
    "C25_setof",
    "C25_diff",
    "C25_inter"
   ],
   "note": ""
  },
  {
   "property": "C26",
   "status": "proved",
   "theorems": [
    "C26_minclude",
    "C26_meq",
    "C26_meq_both_inclusions"
   ],
   "note": ""
  },
  {
   "property": "C27",
   "status": "partial",
   "theorems": [
    "C27_left_lists_refuted",
    "C27_left_lists_partial",
    "C27_rev_is_identity",
    "C27_concat_reverses_second"
   ],
   "note": "full statement is false of the model (witness theorem); true part proved"
  },
  {
   "property": "C28",
   "status": "partial",
   "theorems": [
    "C28_right_assoc_nil",
    "C28_left_assoc_nil",
    "C28_non_singleton_many",
    "C28_non_singleton_few",
    "C28_non_singleton_one",
    "C28_right_assoc",
    "C28_left_assoc",
    "C28_chainable",
    "C28_pairwise",
    "C28_arg_list",
    "C28_plain",
    "C28_higher_order",
    "C28_right_assoc_one_argument_refuted",
    "C28_assoc_one_argument",
    "C28_chainable_one_argument_refuted",
    "C28_combine_one_argument"
   ],
   "note": "full statement is false of the model (witness theorem); true part proved"
  },
  {
   "property": "C29",
   "status": "partial",
   "theorems": [
    "C29_read_back",
    "C29_injective",
    "C29_left_read_back_refuted",
    "C29_parameterized_nil_refuted"
   ],
   "note": "full statement is false of the model (witness theorem); true part proved"
  },
  {
   "property": "C30",
   "status": "proved",
   "theorems": [
    "C30_hash",
    "C30_compare_irreflexive",
    "C30_compare_total",
    "C30_compare_transitive",
    "C30_compare_stable",
    "C30_compare_hash"
   ],
   "note": ""
  },
  {
   "property": "C31",
   "status": "partial",
   "theorems": [
    "C31_ground",
    "C31_not_ground",
    "C31_escaped_name_refuted",
    "C31_var_operator"
   ],
   "note": "full statement is false of the model (witness theorem); true part proved"
  },
  {
   "property": "C32",
   "status": "proved",
   "theorems": [
    "C32_applications_differ",
    "C32_same_application",
    "C32_without_deletion",
    "C32_literals",
    "C32_symbols",
    "C32_equal_terms",
    "C32_stable"
   ],
   "note": ""
  },
  {
   "property": "C33",
   "status": "partial",
   "theorems": [
    "C33_refuted",
    "C33_partial",
    "C33_lost",
    "C33_two_objects_refuted"
   ],
   "note": "full statement is false of the model (witness theorem); true part proved"
  },
  {
   "property": "C34",
   "status": "partial",
   "theorems": [
    "C34_refuted",
    "C34_missing_entry_refuted",
    "C34_safe_iff",
    "C34_requests_served"
   ],
   "note": "full statement is false of the model (witness theorem); true part proved"
  },
  {
   "property": "C35",
   "status": "partial",
   "theorems": [
    "C35_names",
    "C35_restores",
    "C35_accepted",
    "C35_no_ub",
    "C35_rules_refuted",
    "C35_marks_refuted"
   ],
   "note": "full statement is false of the model (witness theorem); true part proved"
  },
  {
   "property": "C36",
   "status": "partial",
   "theorems": [
    "C36_no_names",
    "C36_alternatives_refuted",
    "C36_meaning_refuted",
    "C36_rules_refuted",
    "C36_partial",
    "C36_run_refuted"
   ],
   "note": "full statement is false of the model (witness theorem); true part proved"
  },
  {
   "property": "C37",
   "status": "partial",
   "theorems": [
    "C37_first_alternative_refuted",
    "C37_last_alternative_partial",
    "C37_as",
    "C37_as_constant_refuted",
    "C37_unapplied_refuted"
   ],
   "note": "full statement is false of the model (witness theorem); true part proved"
  },
  {
   "property": "C38",
   "status": "partial",
   "theorems": [
    "C38_refuted",
    "C38_sound_partial"
   ],
   "note": "full statement is false of the model (witness theorem); true part proved"
  },
  {
   "property": "C39",
   "status": "partial",
   "theorems": [
    "C39_refuted",
    "C39_nested_partial"
   ],
   "note": "full statement is false of the model (witness theorem); true part proved"
  },
  {
   "property": "C40",
   "status": "partial",
   "theorems": [
    "C40_reference_partial",
    "C40_refuted",
    "C40_normalized_partial",
    "C40_accepts"
   ],
   "note": "full statement is false of the model (witness theorem); true part proved"
  },
  {
   "property": "C41",
   "status": "partial",
   "theorems": [
    "C41_one_reference_partial",
    "C41_command_line_refuted",
    "C41_include_refuted",
    "C41_second_refuted"
   ],
   "note": "full statement is false of the model (witness theorem); true part proved"
  },
  {
   "property": "C42",
   "status": "partial",
   "theorems": [
    "C42_verdict",
    "C42_closed",
    "C42_stdin_refuted"
   ],
   "note": "full statement is false of the model (witness theorem); true part proved"
  },
  {
   "property": "C43",
   "status": "proved",
   "theorems": [
    "C43_discharges",
    "C43_stated",
    "C43_binds",
    "C43_declared",
    "C43_concludes"
   ],
   "note": ""
  },
  {
   "property": "C44",
   "status": "partial",
   "theorems": [
    "C44_partial",
    "C44_stdin",
    "C44_refuted"
   ],
   "note": "full statement is false of the model (witness theorem); true part proved"
  },
  {
   "property": "C45",
   "status": "proved",
   "theorems": [
    "C45_characters",
    "C45_stdin",
    "C45_file_or_stdin"
   ],
   "note": ""
  },
  {
   "property": "C46",
   "status": "partial",
   "theorems": [
    "C46_tokens",
    "C46_layout_ignored",
    "C46_symbol",
    "C46_symbol_name",
    "C46_string",
    "C46_keyword_refuted",
    "C46_nul_refuted"
   ],
   "note": "full statement is false of the model (witness theorem); true part proved"
  },
  {
   "property": "C47",
   "status": "proved",
   "theorems": [
    "C47_one_rule",
    "C47_conflict",
    "C47_one_attribute",
    "C47_refused",
    "C47_first"
   ],
   "note": ""
  },
  {
   "property": "C48",
   "status": "proved",
   "theorems": [
    "C48_accepted_case_ground",
    "C48_check_exact"
   ],
   "note": ""
  },
  {
   "property": "C49",
   "status": "proved",
   "theorems": [
    "C49_once",
    "C49_repeat"
   ],
   "note": ""
  },
  {
   "property": "C50",
   "status": "proved",
   "theorems": [
    "C50_getVariables",
    "C50_hasVariable"
   ],
   "note": ""
  },
  {
   "property": "C51",
   "status": "partial",
   "theorems": [
    "C51_union_member_refuted",
    "C51_union_member_partial"
   ],
   "note": "full statement is false of the model (witness theorem); true part proved"
  },
  {
   "property": "C52",
   "status": "proved",
   "theorems": [
    "C52_bool_operators",
    "C52_num_operators",
    "C52_num_gt",
    "C52_bv_gt"
   ],
   "note": ""
  },
  {
   "property": "C53",
   "status": "partial",
   "theorems": [
    "C53_list_operators_on_values_refuted",
    "C53_list_operators_partial"
   ],
   "note": "full statement is false of the model (witness theorem); true part proved"
  },
  {
   "property": "C54",
   "status": "proved",
   "theorems": [
    "C54_in_use"
   ],
   "note": ""
  },
  {
   "property": "C55",
   "status": "partial",
   "theorems": [
    "C55_refuted",
    "C55_arguments_kept",
    "C55_partial"
   ],
   "note": "full statement is false of the model (witness theorem); true part proved"
  },
  {
   "property": "C56",
   "status": "partial",
   "theorems": [
    "C56_hash_refuted",
    "C56_order_refuted",
    "C56_partial",
    "C56_order_partial"
   ],
   "note": "full statement is false of the model (witness theorem); true part proved"
  },
  {
   "property": "C57",
   "status": "partial",
   "theorems": [
    "C57_partial",
    "C57_refuted"
   ],
   "note": "full statement is false of the model (witness theorem); true part proved"
  },
  {
   "property": "C58",
   "status": "partial",
   "theorems": [
    "C58_refutation_partial",
    "C58_refuted"
   ],
   "note": "full statement is false of the model (witness theorem); true part proved"
  },
  {
   "property": "C59",
   "status": "proved",
   "theorems": [
    "C59_value",
    "C59_substitution",
    "C59_other_arity"
   ],
   "note": ""
  },
  {
   "property": "C60",
   "status": "proved",
   "theorems": [
    "C60_left",
    "C60_operators",
    "C60_values"
   ],
   "note": ""
  },
  {
   "property": "C61",
   "status": "proved",
   "theorems": [
    "C61_opaque",
    "C61_fewer"
   ],
   "note": ""
  },
  {
   "property": "C62",
   "status": "proved",
   "theorems": [
    "C62_program",
    "C62_program_arity",
    "C62_rule"
   ],
   "note": ""
  },
  {
   "property": "C63",
   "status": "proved",
   "theorems": [
    "C63_exact",
    "C63_unique",
    "C63_bound",
    "C63_function",
    "C63_untyped",
    "C63_run",
    "C63_run_exact",
    "C63_run_read"
   ],
   "note": ""
  },
  {
   "property": "C64",
   "status": "partial",
   "theorems": [
    "C64_follows_declaration",
    "C64_nullary_refuted"
   ],
   "note": "full statement is false of the model (witness theorem); true part proved"
  },
  {
   "property": "C65",
   "status": "proved",
   "theorems": [
    "C65_assumed",
    "C65_concluded"
   ],
   "note": ""
  },
  {
   "property": "C66",
   "status": "proved",
   "theorems": [
    "C66_reads",
    "C66_exact"
   ],
   "note": ""
  },
  {
   "property": "C67",
   "status": "proved",
   "theorems": [
    "C67_names_kept",
    "C67_static",
    "C67_abbreviation"
   ],
   "note": ""
  },
  {
   "property": "C68",
   "status": "partial",
   "theorems": [
    "C68_hides_refuted",
    "C68_lasting_refuted",
    "C68_inside_partial",
    "C68_applied_partial"
   ],
   "note": "full statement is false of the model (witness theorem); true part proved"
  },
  {
   "property": "C69",
   "status": "proved",
   "theorems": [
    "C69_exact",
    "C69_accepts"
   ],
   "note": ""
  },
  {
   "property": "C70",
   "status": "proved",
   "theorems": [
    "C70_exact",
    "C70_accepts"
   ],
   "note": ""
  },
  {
   "property": "C71",
   "status": "partial",
   "theorems": [
    "C71_one_list_refuted",
    "C71_one_list_partial"
   ],
   "note": "full statement is false of the model (witness theorem); true part proved"
  },
  {
   "property": "C72",
   "status": "partial",
   "theorems": [
    "C72_defined_refuted",
    "C72_bound_refuted",
    "C72_datatypes_partial",
    "C72_datatype_partial"
   ],
   "note": "full statement is false of the model (witness theorem); true part proved"
  },
  {
   "property": "C73",
   "status": "partial",
   "theorems": [
    "C73_names",
    "C73_kinds",
    "C73_read_back",
    "C73_distinct",
    "C73_operators",
    "C73_every_operator",
    "C73_every_name_refuted",
    "C73_every_name_distinct_refuted"
   ],
   "note": "full statement is false of the model (witness theorem); true part proved"
  },
  {
   "property": "C74",
   "status": "proved",
   "theorems": [
    "C74_text",
    "C74_only",
    "C74_one_text"
   ],
   "note": ""
  },
  {
   "property": "C75",
   "status": "partial",
   "theorems": [
    "C75_shared",
    "C75_expansion_refuted"
   ],
   "note": "full statement is false of the model (witness theorem); true part proved"
  },
  {
   "property": "C76",
   "status": "partial",
   "theorems": [
    "C76_read_back",
    "C76_every_term_refuted"
   ],
   "note": "full statement is false of the model (witness theorem); true part proved"
  },
  {
   "property": "C77",
   "status": "partial",
   "theorems": [
    "C77_items",
    "C77_run",
    "C77_stops",
    "C77_unrecognized",
    "C77_undefined",
    "C77_refuses_refuted"
   ],
   "note": "full statement is false of the model (witness theorem); true part proved"
  },
  {
   "property": "C78",
   "status": "partial",
   "theorems": [
    "C78_right",
    "C78_found",
    "C78_later_refuted"
   ],
   "note": "full statement is false of the model (witness theorem); true part proved"
  },
  {
   "property": "C79",
   "status": "proved",
   "theorems": [
    "C79_command",
    "C79_file",
    "C79_made_once",
    "C79_start"
   ],
   "note": ""
  },
  {
   "property": "C80",
   "status": "proved",
   "theorems": [
    "C80_names",
    "C80_reading"
   ],
   "note": ""
  },
  {
   "property": "C81",
   "status": "proved",
   "theorems": [
    "C81_local",
    "C81_command",
    "C81_file",
    "C81_conditions_needed"
   ],
   "note": ""
  },
  {
   "property": "C82",
   "status": "proved",
   "theorems": [
    "C82_closed",
    "C82_read"
   ],
   "note": ""
  },
  {
   "property": "C83",
   "status": "partial",
   "theorems": [
    "C83_preserved_partial",
    "C83_refuted"
   ],
   "note": "full statement is false of the model (witness theorem); true part proved"
  },
  {
   "property": "C84",
   "status": "partial",
   "theorems": [
    "C84_operator",
    "C84_arrow",
    "C84_meaning",
    "C84_meaning_only",
    "C84_booleans",
    "C84_attributes",
    "C84_literals",
    "C84_manual_refuted"
   ],
   "note": "full statement is false of the model (witness theorem); true part proved"
  },
  {
   "property": "C85",
   "status": "partial",
   "theorems": [
    "C85_is_list",
    "C85_cons",
    "C85_length",
    "C85_concat",
    "C85_nth",
    "C85_nth_none",
    "C85_find",
    "C85_rev",
    "C85_erase",
    "C85_erase_all",
    "C85_setof",
    "C85_diff",
    "C85_inter",
    "C85_singleton_elim",
    "C85_eq",
    "C85_tests",
    "C85_order",
    "C85_gt_refuted",
    "C85_left_refuted",
    "C85_minclude",
    "C85_meq",
    "C85_is_var"
   ],
   "note": "full statement is false of the model (witness theorem); true part proved"
  },
  {
   "property": "C86",
   "status": "partial",
   "theorems": [
    "C86_declared",
    "C86_typed",
    "C86_read",
    "C86_elements",
    "C86_manual_refuted"
   ],
   "note": "full statement is false of the model (witness theorem); true part proved"
  },
  {
   "property": "C87",
   "status": "partial",
   "theorems": [
    "C87_refuted",
    "C87_safe_partial",
    "C87_operator_partial"
   ],
   "note": "full statement is false of the model (witness theorem); true part proved"
  },
  {
   "property": "C88",
   "status": "proved",
   "theorems": [
    "C88_numeral",
    "C88_decimal",
    "C88_rational",
    "C88_bits",
    "C88_string"
   ],
   "note": ""
  },
  {
   "property": "C89",
   "status": "proved",
   "theorems": [
    "C89_rev_rev",
    "C89_concat_assoc",
    "C89_rev_concat",
    "C89_length_concat",
    "C89_setof_setof",
    "C89_setof_included",
    "C89_diff_inter",
    "C89_nth_find",
    "C89_erase_all_concat",
    "C89_find_erased"
   ],
   "note": ""
  },
  {
   "property": "C90",
   "status": "proved",
   "theorems": [
    "C90_arithmetic",
    "C90_bits",
    "C90_division",
    "C90_rational_division",
    "C90_strings",
    "C90_order"
   ],
   "note": ""
  }
 ]
}