{
 "claims": [
  {
   "property": "C01",
   "status": "proved",
   "theorems": [
    "C01_construction_terminates"
   ],
   "note": ""
  },
  {
   "property": "C02",
   "status": "proved",
   "theorems": [
    "C02_accepted_query_is_read_to_its_end"
   ],
   "note": ""
  },
  {
   "property": "C03",
   "status": "proved",
   "theorems": [
    "C03_every_rejection_points_into_the_text"
   ],
   "note": ""
  },
  {
   "property": "C04",
   "status": "partial",
   "theorems": [
    "C04_blank_behind_refuted",
    "C04_newline_behind_refuted",
    "C04_white_in_front_partial",
    "C04_white_in_front_refuted",
    "C04_white_behind_partial",
    "C04_white_behind_removed_partial",
    "C04_blanks_behind_rewritten_partial",
    "C04_short_refuted"
   ],
   "note": "White space in front is irrelevant for every text without '$'; white space behind is irrelevant for accepted texts without WHERE, or in which no geometry stands behind AND, that do not end with one of the words of end_words, at a place where a word may start (names like atlas or moon are allowed; a column named cot is a counterexample), blanks behind for the texts of the form that is rewritten. False in general in front ('$`' in a text that is rewritten) and behind. False if a condition of one character follows the last geometry at the end of the text (C04_short_refuted)."
  },
  {
   "property": "C05",
   "status": "partial",
   "theorems": [
    "C05_identifiers_exactly",
    "C05_other_words_are_identifiers",
    "C05_reserved_words_rejected_partial",
    "C05_shadowed_refuted",
    "C05_shadowed_words_accepted"
   ],
   "note": "exact characterisation of the identifier rule; the full property is false for TOP, ATAN2, ATAN, ASIN, AREA, INTERSECTS (and END followed by -EXEC and more letters)"
  },
  {
   "property": "C06",
   "status": "partial",
   "theorems": [
    "C06_word_is_a_column_partial",
    "C06_selected_word_partial",
    "C06_words_rejected",
    "C06_word_rejected_refuted",
    "C06_qualified_partial"
   ],
   "note": "all words except those that start with TRUE, FALSE or CURRENT_TIMESTAMP and COT, for which it is false"
  },
  {
   "property": "C07",
   "status": "proved",
   "theorems": [
    "C07_delimited_identifier_kept",
    "C07_delimited_column",
    "C07_selected_delimited"
   ],
   "note": ""
  },
  {
   "property": "C08",
   "status": "partial",
   "theorems": [
    "C08_string_literal_kept_partial",
    "C08_selected_literal_partial",
    "C08_literal_rewritten_refuted"
   ],
   "note": "for texts that are not rewritten in front of the parser (C34); false otherwise"
  },
  {
   "property": "C09",
   "status": "proved",
   "theorems": [
    "C09_number_kept",
    "C09_selected_number"
   ],
   "note": ""
  },
  {
   "property": "C10",
   "status": "proved",
   "theorems": [
    "C10_replaced",
    "C10_missing"
   ],
   "note": "Names of tables in an accepted query are mapped uploads or ordinary names; the mapping only decides between success and the error naming the missing table (C03 gives the error text)."
  },
  {
   "property": "C11",
   "status": "partial",
   "theorems": [
    "C11_top_is_the_number",
    "C11_every_number_below_2_64_accepted",
    "C11_top_printed_partial",
    "C11_top_not_given_not_printed",
    "C11_largest_top_lost_refuted"
   ],
   "note": "value and acceptance for all numbers; the formatted text loses TOP 18446744073709551615"
  },
  {
   "property": "C12",
   "status": "partial",
   "theorems": [
    "C12_letter_case_partial",
    "C12_no_uploads",
    "C12_upload_refuted",
    "C12_keyword_refuted"
   ],
   "note": "Any respelling of any letters of the text gives the same structure or the same error, provided the names of uploaded tables in the handed text are spelled alike; false as stated when the rewriting moves a keyword into a delimited upload name (witness), and for the schema name TAP_UPLOAD itself."
  },
  {
   "property": "C13",
   "status": "proved",
   "theorems": [
    "C13_read_back",
    "C13_written_apart",
    "C13_normal_form",
    "C13_query_partial",
    "C13_query_no_geometry_partial",
    "C13_reread_refuted",
    "C13_accepted_partial",
    "C13_query_geometry_partial",
    "C13_accepted_query_partial",
    "C13_written_alike_partial",
    "C13_minus_minus_refuted",
    "C13_same_text_partial"
   ],
   "note": "C13_read_back: for every canonical query (SpecCanon.v, a decidable condition on the abstract syntax alone), every mapping and every number format, ADQL_parser reads the written text back to the same query; C13_written_apart: writing is injective on canonical queries. For the constructor of Query, which rewrites the text first, the same holds when the rewriting finds nothing to rewrite (C13_query_partial, C13_query_no_geometry_partial); C13_reread_refuted shows that this condition is needed. Numbers in shapes are by assumption written as they were read (c_double). C13_normal_form: a query whose normal form (SpecNorm.v) is canonical is written like it, and its normal form is what is read. C13_accepted_partial: every query that is accepted has a canonical normal form and is therefore read back, if its parts are usual and the mapping maps to ordinary names. usual (SpecUsual.v) is a condition on single parts that excludes the findings only: reserved words as names, string literals in several pieces, numbers that end in a point, a sign behind a minus, NOT in front of a name that starts with NOT, a value in parentheses as a condition, table functions without arguments; that conditions and joins are grouped as they are read back follows from the parser's greediness (Greedy.v, Lead.v). C13_query_geometry_partial, C13_accepted_query_partial: for the constructor it is enough that every geometry in the written text stands behind WHERE. C13_minus_minus_refuted: a- -b between string literals is formatted to a text that is refused."
  },
  {
   "property": "C14",
   "status": "partial",
   "theorems": [
    "C14_content_kept_partial",
    "C14_stray_not_refuted"
   ],
   "note": "Token sequence of the formatted text equals that of the parsed text up to a fixed list of normalisations, for every accepted query and mapping; in texts with a NOT directly followed by a non-blank, extra NOTs may appear (witness: notes=1)."
  },
  {
   "property": "C15",
   "status": "proved",
   "theorems": [
    "C15_recorded_clauses_are_printed",
    "C15_empty_table_name_refuted"
   ],
   "note": "for table mappings without empty target names; refuted without that hypothesis"
  },
  {
   "property": "C16",
   "status": "partial",
   "theorems": [
    "C16_negated_iff_not_partial",
    "C16_column_notes_refuted"
   ],
   "note": "exact characterisation; the full property is false (column named notes)"
  },
  {
   "property": "C17",
   "status": "partial",
   "theorems": [
    "C17_nothing_behind_partial",
    "C17_clauses_behind_refuted",
    "C17_rest_is_ignored",
    "C17_column_refuted"
   ],
   "note": "false as stated: GROUP BY/HAVING/ORDER BY behind the WHERE clause are dropped (witness, and general theorem that the rest never matters); true only when nothing follows. Clauses are lost in queries without a geometry, too (C17_column_refuted). Further hypothesis: parentheses nested less than 65536 deep, because of the 16-bit counter (C17_nothing_behind_partial)."
  },
  {
   "property": "C18",
   "status": "partial",
   "theorems": [
    "C18_meaning_kept_partial",
    "C18_or_refuted",
    "C18_short_condition_dropped",
    "C18_short_refuted",
    "C18_having_dropped",
    "C18_having_refuted",
    "C18_column_refuted"
   ],
   "note": "kept for every text of the intended form without OR on the left outside of parentheses; refuted with OR. A condition of one character behind the last geometry is dropped (C18_short_condition_dropped, C18_short_refuted). A name behind the geometry that contains HAVING is cut in two and the rest of the text dropped (C18_having_refuted). Queries without a geometry are changed, too, if a name behind AND starts with CONTAINS or INTERSECTS (C18_column_refuted). Further hypothesis: parentheses nested less than 65536 deep, because of the 16-bit counter (C18_meaning_kept_partial)."
  },
  {
   "property": "C19",
   "status": "partial",
   "theorems": [
    "C19_text_is_moved_partial",
    "C19_intended_form_partial",
    "C19_dollar_refuted"
   ],
   "note": "for texts without $; refuted with $ Further hypothesis: parentheses nested less than 65536 deep, because of the 16-bit counter (C19_intended_form_partial)."
  },
  {
   "property": "C20",
   "status": "partial",
   "theorems": [
    "C20_parenthesis_adjustment_partial",
    "C20_unclosed_refuted"
   ],
   "note": "exact characterisation for nesting depth below 65536; an unclosed parenthesis is not rejected"
  },
  {
   "property": "C21",
   "status": "partial",
   "theorems": [
    "C21_true_depth_partial",
    "C21_depth_wraps_refuted",
    "C21_unbalanced_accepted_refuted"
   ],
   "note": "below depth 65536; refuted at 65536"
  },
  {
   "property": "C22",
   "status": "proved",
   "theorems": [
    "C22_no_geometry_in_subqueries"
   ],
   "note": ""
  },
  {
   "property": "C23",
   "status": "partial",
   "theorems": [
    "C23_flag_partial",
    "C23_formatted_partial",
    "C23_accepted_partial",
    "C23_any_query",
    "C23_any_query_constructor",
    "C23_accepted_query_partial",
    "C23_other_flag_refused",
    "C23_get_predicate",
    "C23_predicate_formatted_partial"
   ],
   "note": "Recorded flag is the digit written, or 1 when nothing and no '=' follows; formatted with the flag (every accepted query). All spellings are accepted in every component of every canonical query and of the normal form of every accepted query with usual parts, with or without further conditions, in parentheses, in front of GROUP BY, HAVING, ORDER BY and UNION, and the formatted text does not depend on the spelling. Anything but 0 and 1 behind '=' is refused. Missing: operands that are not usual (SpecUsual.v); texts that are rewritten first and not of the intended form (for that form see C39_behind_conditions_partial)."
  },
  {
   "property": "C24",
   "status": "partial",
   "theorems": [
    "C24_frame_partial",
    "C24_formatted",
    "C24_accepted_partial",
    "C24_respelt_partial",
    "C24_respelt_accepted_partial",
    "C24_respelt_query_partial",
    "C24_ellipse_refuted",
    "C23_any_query",
    "C23_any_query_constructor",
    "C24_rewritten_partial"
   ],
   "note": "The frame recorded is the one written, ICRS if none; formatted with frame and GEOCENTER. Texts that differ in the spelling of the coordinate systems of any number of POINT, CIRCLE, BOX and POLYGON, anywhere, get the same answer of the parser (and of the constructor, if no geometry stands behind AND). ELLIPSE: every spelling is accepted in the conditions on geometries of canonical queries (C23_any_query); outside of geometries it is a function call whose argument is recorded as written (C24_ellipse_refuted). Texts that are rewritten first: for the intended form (last_geometry), C24_rewritten_partial. Missing: other texts that are rewritten first."
  },
  {
   "property": "C25",
   "status": "proved",
   "theorems": [
    "C25_ieee_result",
    "C25_throws_exactly",
    "C25_in_queries"
   ],
   "note": "All pairs of binary64 data, all operators. Uses the standard library's real-number axioms (see DESIGN.md)."
  },
  {
   "property": "C26",
   "status": "proved",
   "theorems": [
    "C26_union_accessors_agree",
    "C26_count_wraps_refuted",
    "C26_is_union"
   ],
   "note": "fewer than 2^32 components"
  },
  {
   "property": "C27",
   "status": "proved",
   "theorems": [
    "C27_union_index_validation"
   ],
   "note": ""
  },
  {
   "property": "C28",
   "status": "proved",
   "theorems": [
    "C28_table_lists_are_complete"
   ],
   "note": ""
  },
  {
   "property": "C29",
   "status": "proved",
   "theorems": [
    "C29_simplified_columns_describe_the_select_list"
   ],
   "note": ""
  },
  {
   "property": "C30",
   "status": "partial",
   "theorems": [
    "C30_simple_spatial_query_partial",
    "C30_lower_case_all_refuted"
   ],
   "note": "exact characterisation; the full property is false (lower-case all)"
  },
  {
   "property": "C31",
   "status": "partial",
   "theorems": [
    "C31_conjunction_partial",
    "C31_or_refuted"
   ],
   "note": "Holds exactly for search conditions without a top-level OR; refuted with one."
  },
  {
   "property": "C32",
   "status": "partial",
   "theorems": [
    "C32_written_partial",
    "C32_read_back_partial",
    "C32_accepted_partial"
   ],
   "note": "Grouping, kind, condition and USING columns are those written (every accepted query); canonical joins are read back from their text, and so are the joins of accepted queries if their parts are `usual` (SpecUsual.v). Missing: joins with unusual parts, for some of which it is false (C13 findings)."
  },
  {
   "property": "C33",
   "status": "partial",
   "theorems": [
    "C33_no_arguments_refuted",
    "C33_arguments_partial"
   ],
   "note": "True for all functions with arguments; false for zero arguments."
  },
  {
   "property": "C34",
   "status": "proved",
   "theorems": [
    "C34_not_rewritten",
    "C34_not_behind_and",
    "C34_behind_where"
   ],
   "note": "C34_not_behind_and, C34_behind_where: a text in which no geometry stands directly behind AND (in particular one whose geometries all stand behind WHERE, as the printer writes them) is not rewritten (SpecBehind.v)."
  },
  {
   "property": "C35",
   "status": "proved",
   "theorems": [
    "C35_operands",
    "C35_conditions",
    "C35_comparison",
    "C35_text"
   ],
   "note": "Operands, operators, signs, connectives stand in the text in the recorded order."
  },
  {
   "property": "C36",
   "status": "partial",
   "theorems": [
    "C36_exists_x_refuted",
    "C16_column_notes_refuted",
    "C36_names_partial"
   ],
   "note": "True for names that do not start with NOT or EXISTS (on the left; any name on the right); false for the others."
  },
  {
   "property": "C37",
   "status": "partial",
   "theorems": [
    "C37_white_space_partial",
    "C37_accepted_partial",
    "C37_query_partial",
    "C37_union_refuted",
    "C37_string_refuted",
    "C37_not_in_refuted",
    "C37_not_paren_refuted",
    "C37_in_paren_refuted",
    "C37_rewritten_partial"
   ],
   "note": "True for all texts related by `spaced` (SpecWhite.v): white space may change everywhere outside of quotes except inside UNION ALL / UNION DISTINCT, between pieces of a string, in the first byte between NOT and IN, and behind `nan(`; false there. For the constructor: when WHERE or CONTAINS/INTERSECTS does not occur (otherwise the rewriting looks at blanks, see C04), or when both texts have the intended form (last_geometry) and their rewritten texts are related (C37_rewritten_partial). White space cannot be left out in front of a parenthesis behind NOT and IN."
  },
  {
   "property": "C38",
   "status": "partial",
   "theorems": [
    "C38_united_partial",
    "C38_nested_partial",
    "C38_assembled_partial",
    "C38_nested_refuted"
   ],
   "note": "Proved for the formatted texts of accepted queries and parts that are `usual` (SpecUsual.v), the first query of a union without GROUP BY, HAVING and ORDER BY and the second without WITH. False for a query with a condition on geometries used as a table (C38_nested_refuted)."
  },
  {
   "property": "C39",
   "status": "partial",
   "theorems": [
    "C39_same_answer_partial",
    "C39_behind_conditions_partial",
    "C39_one_select_partial",
    "C39_new_line_refuted",
    "C39_short_refuted",
    "C39_name_refuted",
    "C39_order_refuted",
    "C39_union_refuted",
    "C39_inner_where_refused",
    "C39_inner_where_refuted",
    "C39_nowhere_refuted"
   ],
   "note": "Proved for texts of the intended form (last_geometry, SpecRewrite.v: first WHERE, last geometry, one line, nothing but blanks or dropped clauses behind), without '$', with balanced parentheses, in every canonical query. False with a new line inside the conditions in front (C39_new_line_refuted), with '$' (C19_dollar_refuted) and if a GROUP BY, HAVING or ORDER BY follows (C17). False with a condition of one or two characters in front of the geometry (C39_short_refuted). False with a name in the geometry that contains AND (C39_name_refuted) and with a name behind it that starts with GROUP or ORDER (C39_order_refuted). False with a UNION behind the geometry (C39_union_refuted). False if a table in FROM is a subquery with a WHERE (C39_inner_where_refused, C39_inner_where_refuted) or a name ends with WHERE (C39_nowhere_refuted). Further hypothesis: parentheses nested less than 65536 deep, because of the 16-bit counter (C39_same_answer_partial, C39_behind_conditions_partial, C39_one_select_partial, C39_inner_where_refused)."
  },
  {
   "property": "C40",
   "status": "proved",
   "theorems": [
    "C40_only_named",
    "C40_no_upload",
    "C40_new_entry"
   ],
   "note": "All texts and mappings."
  },
  {
   "property": "C41",
   "status": "partial",
   "theorems": [
    "C41_brackets_partial",
    "C41_refused_partial",
    "C41_rewritten_partial",
    "C41_given_partial",
    "C41_nan_refuted",
    "C41_comment_refuted",
    "C41_dropped_refuted"
   ],
   "note": "Proved for every accepted text, as it reaches the grammar, without '--' and without 'nan('; for the round brackets of texts as given without quotes and '$', up to the clauses that the rewriting drops (C41_rewritten_partial, C41_given_partial). False with a comment between the pieces of a string literal (C41_comment_refuted), with nan(...) as a number (C41_nan_refuted), and for the text as given if the rewriting drops a clause (C41_dropped_refuted). Further hypotheses: parentheses nested less than 65536 deep (C41_rewritten_partial), a text of fewer than 65536 characters (C41_given_partial); neither has '--' or 'nan('."
  },
  {
   "property": "C42",
   "status": "partial",
   "theorems": [
    "C42_doubling",
    "C42_doubling_any",
    "C42_unclosed",
    "C42_exponential",
    "C42_polynomial_refuted"
   ],
   "note": "False: every pair of parentheses around a condition at least doubles the number of rules entered (C42_doubling, C42_doubling_any), so no polynomial bounds the work, not even for accepted queries (C42_polynomial_refuted); n parentheses that are never closed enter at least 14^n rules before the text is refused (C42_unclosed). The work is at most exponential in the length of the text that reaches the grammar (C42_exponential)."
  },
  {
   "property": "C43",
   "status": "partial",
   "theorems": [
    "C43_linear",
    "C43_nested",
    "C43_bounded_refuted"
   ],
   "note": "False: n pairs of parentheses around a column, in an accepted query, open at least 2 n rules at the same time (C43_nested, C43_bounded_refuted). The depth is at most linear in the length of the text that reaches the grammar (C43_linear)."
  },
  {
   "property": "C44",
   "status": "partial",
   "theorems": [
    "C44_written",
    "C44_top_partial",
    "C44_select_partial",
    "C44_members_partial",
    "C44_constructed_partial"
   ],
   "note": "Everything about the components, clauses and texts is proved for every accepted query with fewer than 2^32 components (C44_written). That the limit is read back from the formatted text is proved for queries whose parts are `usual` (SpecUsual.v), for ADQL_parser (C44_top_partial). For the constructor if no geometry of the formatted text stands behind AND (C44_constructed_partial). Further hypotheses where they are stated (C44_top_partial, C44_select_partial, C44_members_partial, C44_constructed_partial): a number format that formats its own results alike, and a mapping whose uploaded names can be read as names (upload_name)."
  },
  {
   "property": "C45",
   "status": "proved",
   "theorems": [
    "C45_empty",
    "C45_default_text"
   ],
   "note": "The text of a default constructed query is refused (C45_default_text)."
  },
  {
   "property": "C46",
   "status": "proved",
   "theorems": [
    "C46_same_search",
    "C46_polynomial",
    "C46_reached",
    "C46_fourth_power_refuted"
   ],
   "note": "Steps are calls of the matcher of Regex.v, which gives the same answer (C46_same_search). At most 15000 (l+1)^5 (C46_polynomial); n blocks WHERE xxxANDCONTAINSANDxxHAVING and four new lines take at least n^5/5 (C46_reached), so that no multiple of the fourth power bounds them (C46_fourth_power_refuted)."
  },
  {
   "property": "C47",
   "status": "partial",
   "theorems": [
    "C47_linear",
    "C47_where",
    "C47_bounded_refuted"
   ],
   "note": "False: the depth is at least twice the length of the line behind the first WHERE (C47_where), so that a long number in an accepted query without any nesting exceeds every bound (C47_bounded_refuted). It is at most 2 l + 158 (C47_linear). How much stack a call takes is not modelled."
  },
  {
   "property": "C48",
   "status": "partial",
   "theorems": [
    "C48_no_dollar_partial",
    "C48_square_partial",
    "C48_linear_refuted"
   ],
   "note": "False as stated: with $` in a string literal the text grows with the square of its length, for accepted queries as well, and no linear bound holds. Proved: at most four characters for every text without '$', at most l*(l+4) for every text of length l."
  },
  {
   "property": "C49",
   "status": "partial",
   "theorems": [
    "C49_one_statement_partial",
    "C49_text_partial",
    "C49_select",
    "C49_comment_refuted",
    "C49_lost_end_refuted"
   ],
   "note": "False as stated: 'a - -b' is written 'a--b', a comment, which may hide the opening quote of a literal so that its text is read as code. Proved for every accepted query in which no minus sign is followed by a minus sign (in the tree, and in terms of the parsed text), with mapped names that are harmless and numbers written as numbers. C49_select holds for every query."
  },
  {
   "property": "C50",
   "status": "partial",
   "theorems": [
    "C50_parsed",
    "C50_given_partial",
    "C50_linear_refuted"
   ],
   "note": "Proved with the factor M + 8 for the text that is parsed (C50_parsed), hence for all texts without '$' (C50_given_partial). False for texts with '$', whose rewriting can square the length (C50_linear_refuted, from C48)."
  },
  {
   "property": "C51",
   "status": "partial",
   "theorems": [
    "C51_rebuilt_partial",
    "C51_constructed_partial"
   ],
   "note": "Proved for accepted queries with usual parts (SpecUsual.v), for the grammar (C51_rebuilt_partial) and for the constructor if the rebuilt statement has no WHERE or no geometry behind AND (C51_constructed_partial); missing: unusual parts and statements that the constructor rewrites. Further hypotheses where they are stated (C51_rebuilt_partial, C51_constructed_partial): a number format that formats its own results alike, and a mapping whose uploaded names can be read as names (upload_name)."
  },
  {
   "property": "C52",
   "status": "proved",
   "theorems": [
    "C52_not_empty",
    "C52_empty_name_refuted"
   ],
   "note": "Every part with an empty() that can be linked (Join_Suffix::empty() cannot). Without the condition on the mapping the statement is false (C52_empty_name_refuted)."
  },
  {
   "property": "C53",
   "status": "partial",
   "theorems": [
    "C53_survives",
    "C53_fewer_digits",
    "C53_six_digits_refuted",
    "C53_geometry_partial"
   ],
   "note": "The doubles: proved for all, given correct rounding in both directions (the C++ stream and qi::double_ are not modelled; what they must do is stated in SpecDigits.v); with 16 digits or fewer it is false, so operator<< on a fresh stream (6 digits) loses coordinates. The queries: with usual parts, like C13. Uses the four axioms of the standard library's reals."
  },
  {
   "property": "C54",
   "status": "partial",
   "theorems": [
    "C54_usable_partial",
    "C54_refused_partial",
    "C54_rewritten_partial",
    "C54_given_partial",
    "C54_nan_refuted",
    "C54_comment_refuted",
    "C54_dropped_refuted"
   ],
   "note": "Proved for every accepted text, as it reaches the grammar, without '--' and without 'nan('; such a byte outside of quotes makes a text without WHERE, or in which no geometry stands behind AND, unacceptable; for texts of the form that is rewritten (last_geometry), whose parts close their quotes, all that reaches the query is proved to be ordinary (C54_rewritten_partial), and for all texts without quotes and '$' (C54_given_partial). False with a comment between the pieces of a string literal, with nan(...) as a number, and for the text as given if the rewriting drops a clause (order by a;drop is accepted)."
  },
  {
   "property": "C55",
   "status": "partial",
   "theorems": [
    "C55_parsed",
    "C55_given_partial",
    "C55_square_partial",
    "C55_linear_refuted"
   ],
   "note": "At most 17 parts per character of the text that is parsed (C55_parsed), hence a linear bound for texts without '$' (C55_given_partial) and a quadratic one for all texts (C55_square_partial). False as stated for texts with '$': $3 on the left of the geometry stands for the condition on its right, so that a tree can be quadratic in the text (C55_linear_refuted)."
  },
  {
   "property": "C56",
   "status": "partial",
   "theorems": [
    "C56_parsed",
    "C56_given_partial",
    "C56_flat",
    "C56_bounded_refuted"
   ],
   "note": "False as stated: every AND or OR nests the rest of the condition one level deeper, so that k + 1 conditions in a row without any bracket nest at least k + 1 parts (C56_flat, C56_bounded_refuted). Proved: the nesting is less than 17 times the length of the text that is parsed (C56_parsed), or of the text that was given, plus 4, if it has no '$' (C56_given_partial)."
  },
  {
   "property": "C57",
   "status": "partial",
   "theorems": [
    "C57_once_partial",
    "C57_moved_partial",
    "C57_single_partial",
    "C57_again_refuted"
   ],
   "note": "Proved for every text without '$' in which at most one CONTAINS or INTERSECTS occurs (C57_single_partial), and for texts of the form that is rewritten (last_geometry) with none in front of the geometry that is moved. False with a name like containsx behind AND in front of the geometry: the text is accepted, the rewritten text is refused (C57_again_refuted). Further hypothesis: parentheses nested less than 65536 deep, because of the 16-bit counter (C57_moved_partial)."
  },
  {
   "property": "C58",
   "status": "partial",
   "theorems": [
    "C58_first_where",
    "C58_condition_moved",
    "C58_union_refuted",
    "C58_condition_refuted",
    "C58_having_refuted",
    "C58_in_place_partial",
    "C58_right_partial",
    "C58_read_partial"
   ],
   "note": "False as stated: a geometry behind AND is moved to the first WHERE of the text (C58_first_where, for all texts of this form), so that an accepted union filters the wrong SELECT (C58_union_refuted), and a geometry in HAVING becomes one of WHERE (C58_having_refuted). If the UNION follows the geometry, the conditions in front of it go to the second SELECT (C58_condition_moved, C58_condition_refuted). Proved for texts in which no geometry stands behind AND (C58_in_place_partial). If another condition follows the geometry, the left condition is not carried over a UNION behind it (C58_right_partial: equality with the query of the reordered text; a UNION inside the left condition is not excluded and still misplaces the geometry). Further hypothesis: parentheses nested less than 65536 deep, because of the 16-bit counter (C58_first_where, C58_condition_moved, C58_right_partial). C58_read_partial: an accepted text of the form that is rewritten (last_geometry, balanced, without '$') is read as the reordered text, part by part; the same depth hypothesis."
  }
 ]
}
