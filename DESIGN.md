# Formal model of libadql (Rocq / Coq 8.16.1)

libadql turns an ADQL text into an `ADQL::Query`: it (1) rewrites the text with a
regular expression when a search condition is written in front of a geometry
condition (`src/Query/Query.cxx`), (2) parses it with a Boost.Spirit Qi grammar
(`src/Query/ADQL_parser/ADQL_parser/init_*.cxx`) into an AST, (3) prints the AST again with
`operator<<`, and (4) offers accessors (unions, tables, columns,
`simple_spatial_query`, constant evaluation).  All four are modelled.

## Contents of `rocq/theories`

Model (definitions only, each with the /repo file and lines it stands for):

* `Chars.v`     bytes, character classes, skipping, case folding.
* `Peg.v`       the Spirit Qi combinators as a deep embedding and an interpreter:
                `se` (character level rules with a `std::string` attribute that is appended
                in place) and `pe` (token level rules, with skipper), outcomes
                `Ok / Fail / Throw / out of fuel`.
* `Ast.v`       the AST types and their `empty()` members.
* `Lexical.v`, `Grammar.v`  the grammar, rule by rule.
* `Print.v`     all `operator<<`.
* `Regex.v`, `Preprocess.v` the regular expression (backtracking matcher), parenthesis check,
                `regex_replace` with `$` expansion.
* `RegexCost.v`  the same matcher, counting its calls and how deeply they are nested.
* `Query.v`     `parse_it`, the constructor, accessors.
* `Work.v`, `Depth.v`  the number of rules that are entered while a text is parsed, and that are open at the same time.
* `Api.v`       writing through the accessors, the default constructed query.
* `EmptyParts.v` the empty() members that printing does not need.
* `Predicate.v` Geometry::get_predicate.
* `Evaluate.v`  `evaluate()` over IEEE doubles (`Coq.Floats.SpecFloat`, 53/1024).
* `TestDefs.v`, `Tests1-3.v` the repository's own test vectors run on the model (validation of
                the model, not claims).

Specifications (they do not mention the parser, the regex engine or the fuel):
`Spec.v` (texts, occurrences, unions, tables), `SpecLexical.v` (words, literals),
`SpecNodes.v`, `SpecClauses.v` (parts of a query), `SpecRewrite.v` (the intended form of a WHERE
clause, nesting depth, truth of AND/OR chains), `SpecFloats.v` (IEEE by real numbers, Flocq),
`SpecContent.v` (tokens and the permitted normalisations), `SpecSpelling.v` (how a text spells a
node), `SpecCase.v`, `SpecCaseResult.v` (equal up to letter case), `SpecCanon.v` (canonical
queries), `SpecNorm.v` (normal form), `SpecFine.v`, `SpecUsual.v` (conditions on single parts),
`SpecWhite.v` (texts that differ in white space), `SpecBehind.v` (what stands in front of geometries), `SpecSystem.v`
(texts that differ in the spelling of coordinate systems), `SpecFlags.v` (spellings of conditions on geometries in a query), `SpecMoved.v` (conditions joined by AND), `SpecUploads.v` (names of uploaded tables in a text), `SpecBrackets.v` (matching brackets and quotes), `SpecNumbers.v` (numbers in shapes), `SpecDigits.v` (decimal numerals, written with a number of digits and read as doubles), `SpecTrail.v` (the words behind which white space matters), `SpecRebuild.v` (a statement from columns, tables and a condition), `SpecStatement.v` (quotes, comments and semicolons as a database reads them).

Statements: `Properties1.v` .. `Properties45.v`: theorems with short proofs, `Print Assumptions`
behind each, `Example`s that meet the hypotheses.

Everything else is proof: `PegProps`, `PegSpec`, `PegEquiv` (big-step semantics of the
combinators, equivalent to the interpreter), `Totality` (fuel), `Gen` (derivations: induction over
what was read), `Calc`, `Look`, `First`, `Tight` (calculus for running the grammar on symbolic
texts), `Rewrite*`, `Regex*`, `ParenProofs` (rewriting), `Content*` (C14), `Spell*` (C23, C24, C32,
C35), `Case*` (C12), `Canon*`, `AstInd`, `PrintEq`, `NormProofs` (C13), `SkipInv`, `Around` (C04), `Written` (C23, C24),
`Fine*`, `Greedy`, `Lead`, `SubNodes`, `Compose` (C13, C32, C38: accepted queries and their parts), `White*` (C37), `Trail*` (C04), `RewriteNot` (C34), `Sys*` (C24), `FlagProofs` (C23), `MovedProofs` (C39), `MappingLocal`, `UploadProofs` (C40), `BracketProofs` (C41), `WorkProofs`, `WorkUpper`, `WorkOpen` (C42), `StatementProofs`, `MinusText` (C49), `DepthProofs` (C43), `ApiProofs` (C44), `RegexCostProofs`, `RegexLower`, `RegexDepth` (C46, C47), `RewriteSize` (C48), `FormatSize` (C50), `RebuildProofs` (C51), `NumberProofs` (C25), `EmptyProofs` (C52), `DigitProofs` (C53).

## Trusted base

* Coq's kernel (and `coqchk`, which replays it).
* Axioms.  `Print Assumptions` gives "Closed under the global context" for every theorem except
  `C25_ieee_result` (and what is built on it), `C53_survives`, `C53_fewer_digits`, `C53_six_digits_refuted` and
  `C53_geometry_partial`, which are about real numbers and list
  `ClassicalDedekindReals.sig_not_dec`, `ClassicalDedekindReals.sig_forall_dec`,
  `FunctionalExtensionality.functional_extensionality_dep` and `Classical_Prop.classic`.
  `coqchk` also lists, as contents of standard library files that are loaded, the opaque module
  parameters `Coq.ssr.ssrunder.Under_rel.*` and `Coq.Reals.Rdefinitions.RbaseSymbolsImpl.*`,
  `RinvImpl.*`; these are not axioms of ours, and no theorem depends on the former.
  There are no axioms, `Variable`s outside sections, `Admitted`s or switched-off checks of our own.
* That the model is the code.  The definitions were written by reading /repo; nothing was compiled.
  The points where reading C++ alone does not decide are listed next.

### How Boost.Spirit Qi is read

* `a | b` is ordered choice; `a >> b` restores the iterator when it fails; `a > b` throws
  `expectation_failure` when `b` fails, with the position at which that later component left the
  iterator.  Precedence: `%`, then `>>`, then `>`, then `|`.
* `on_error` is installed on the top rule only; the `runtime_error` of `checked_mapping` passes through.
* The skipper is `ascii::space` (bytes 9-13 and 32).  Primitives, `lexeme[]` and rules without a
  skipper skip first, and leave the iterator behind the skipped blanks when they fail; a kleene star
  or an alternative goes on from there.  `a % b` goes back behind the last element.  `phrase_parse`
  skips behind a success.  `&no_skip[space]` does not skip and consumes nothing.
* `no_case["..."]` compares ASCII letters without regard to case and gives the text as written.
* A `std::string` attribute is appended in place and not rolled back by failing alternatives unless
  there is a `hold[]`.  Two places where this is observable are in the model: the optional `NOT`
  of conditions ("not" stays when no blank follows), and exact numbers.  One is not: the text an
  unterminated delimited alias leaves behind in an optional `correlation_specification`, in a query
  that is rejected in any case.
* `qi::ulong_long` fails from 2^64 on.  `qi::double_` is modelled by the text it accepts: digits with point
  and exponent, `nan`, `nan(...)`, `inf`, `infinity` in any letter case.  `1.#INF` and overflowing
  exponents are not modelled.  The value is kept as that text; printing it applies an unknown
  function `fmt : text -> text`, over which all theorems quantify (the IEEE value itself only matters in C25 and C53).
* `std::regex` (ECMAScript, icase, `regex_search`, `match_results::format`) is the backtracking
  executor of libstdc++: leftmost, alternatives and repetitions in order of preference.  Its recursion depth is not
  bounded in the model.
* The `assert`s in `Query.cxx` stand in front of the declarations they talk about; NDEBUG is assumed.
* `Query(input)` has the mapping `{{}}`, read as one pair of empty strings.

### Not modelled

Memory and bytes of stack used (the numbers of calls and their nesting are: C42, C43, C46, C47), run time in seconds, locales other than "C",
the wording of the names in "Expecting <...>", the stream state (`ADQL::to_string` sets precision 17; plain
`operator<<` uses the stream's precision, both are instances of `fmt`), the installation and build files, and
`/repo/test`, whose queries are replayed in `Tests1-3.v`.

## Per property: what is proved

| id | status | theorems | remarks |
|----|----|----|----|
| C01 Constructing a Query always terminates | proved | `C01_construction_terminates` |  |
| C02 An accepted query has been read to its end | proved | `C02_accepted_query_is_read_to_its_end` |  |
| C03 Every rejection points into the user's text | proved | `C03_every_rejection_points_into_the_text` |  |
| C04 Surrounding white space is irrelevant | partial | `C04_blank_behind_refuted`, `C04_newline_behind_refuted`, `C04_white_in_front_partial`, `C04_white_in_front_refuted`, `C04_white_behind_partial`, `C04_white_behind_removed_partial`, `C04_blanks_behind_rewritten_partial`, `C04_short_refuted` | White space in front is irrelevant for every text without '$'; white space behind is irrelevant for accepted texts without WHERE, or in which no geometry stands behind AND, that do not end with one of the words of end_words, at a place where a word may start (names like atlas or moon are allowed; a column named cot is a counterexample), blanks behind for the texts of the form that is rewritten. False in general in front ('$`' in a text that is rewritten) and behind. False if a condition of one character follows the last geometry at the end of the text (C04_short_refuted). |
| C05 Reserved words are not identifiers | partial | `C05_identifiers_exactly`, `C05_other_words_are_identifiers`, `C05_reserved_words_rejected_partial`, `C05_shadowed_refuted`, `C05_shadowed_words_accepted` | exact characterisation of the identifier rule; the full property is false for TOP, ATAN2, ATAN, ASIN, AREA, INTERSECTS (and END followed by -EXEC and more letters) |
| C06 Any non-reserved identifier can be used as a column name | partial | `C06_word_is_a_column_partial`, `C06_selected_word_partial`, `C06_words_rejected`, `C06_word_rejected_refuted`, `C06_qualified_partial` | all words except those that start with TRUE, FALSE or CURRENT_TIMESTAMP and COT, for which it is false |
| C07 Delimited identifiers are kept verbatim | proved | `C07_delimited_identifier_kept`, `C07_delimited_column`, `C07_selected_delimited` |  |
| C08 String literals are kept verbatim | partial | `C08_string_literal_kept_partial`, `C08_selected_literal_partial`, `C08_literal_rewritten_refuted` | for texts that are not rewritten in front of the parser (C34); false otherwise |
| C09 Numeric literals are kept verbatim | proved | `C09_number_kept`, `C09_selected_number` |  |
| C10 TAP_UPLOAD tables are always replaced by their mapping | proved | `C10_replaced`, `C10_missing` | Names of tables in an accepted query are mapped uploads or ordinary names; the mapping only decides between success and the error naming the missing table (C03 gives the error text). |
| C11 TOP n is honoured exactly | partial | `C11_top_is_the_number`, `C11_every_number_below_2_64_accepted`, `C11_top_printed_partial`, `C11_top_not_given_not_printed`, `C11_largest_top_lost_refuted` | value and acceptance for all numbers; the formatted text loses TOP 18446744073709551615 |
| C12 Keywords are case-insensitive | partial | `C12_letter_case_partial`, `C12_no_uploads`, `C12_upload_refuted`, `C12_keyword_refuted` | Any respelling of any letters of the text gives the same structure or the same error, provided the names of uploaded tables in the handed text are spelled alike; false as stated when the rewriting moves a keyword into a delimited upload name (witness), and for the schema name TAP_UPLOAD itself. |
| C13 Formatting and parsing again gives the same query | proved | `C13_read_back`, `C13_written_apart`, `C13_normal_form`, `C13_query_partial`, `C13_query_no_geometry_partial`, `C13_reread_refuted`, `C13_accepted_partial`, `C13_query_geometry_partial`, `C13_accepted_query_partial`, `C13_written_alike_partial`, `C13_minus_minus_refuted`, `C13_same_text_partial` | C13_read_back: for every canonical query (SpecCanon.v, a decidable condition on the abstract syntax alone), every mapping and every number format, ADQL_parser reads the written text back to the same query; C13_written_apart: writing is injective on canonical queries. For the constructor of Query, which rewrites the text first, the same holds when the rewriting finds nothing to rewrite (C13_query_partial, C13_query_no_geometry_partial); C13_reread_refuted shows that this condition is needed. Numbers in shapes are by assumption written as they were read (c_double). C13_normal_form: a query whose normal form (SpecNorm.v) is canonical is written like it, and its normal form is what is read. C13_accepted_partial: every query that is accepted has a canonical normal form and is therefore read back, if its parts are usual and the mapping maps to ordinary names. usual (SpecUsual.v) is a condition on single parts that excludes the findings only: reserved words as names, string literals in several pieces, numbers that end in a point, a sign behind a minus, NOT in front of a name that starts with NOT, a value in parentheses as a condition, table functions without arguments; that conditions and joins are grouped as they are read back follows from the parser's greediness (Greedy.v, Lead.v). C13_query_geometry_partial, C13_accepted_query_partial: for the constructor it is enough that every geometry in the written text stands behind WHERE. C13_minus_minus_refuted: a- -b between string literals is formatted to a text that is refused. |
| C14 The formatted query has the same content as the input | partial | `C14_content_kept_partial`, `C14_stray_not_refuted` | Token sequence of the formatted text equals that of the parsed text up to a fixed list of normalisations, for every accepted query and mapping; in texts with a NOT directly followed by a non-blank, extra NOTs may appear (witness: notes=1). |
| C15 No clause that was parsed is left out of the formatted text | proved | `C15_recorded_clauses_are_printed`, `C15_empty_table_name_refuted` | for table mappings without empty target names; refuted without that hypothesis |
| C16 A condition is negated only if the user wrote NOT | partial | `C16_negated_iff_not_partial`, `C16_column_notes_refuted` | exact characterisation; the full property is false (column named notes) |
| C17 Rewriting a geometry-last WHERE clause keeps the clauses behind it | partial | `C17_nothing_behind_partial`, `C17_clauses_behind_refuted`, `C17_rest_is_ignored`, `C17_column_refuted` | false as stated: GROUP BY/HAVING/ORDER BY behind the WHERE clause are dropped (witness, and general theorem that the rest never matters); true only when nothing follows. Clauses are lost in queries without a geometry, too (C17_column_refuted). Further hypothesis: parentheses nested less than 65536 deep, because of the 16-bit counter (C17_nothing_behind_partial). |
| C18 Rewriting keeps the meaning of the WHERE clause | partial | `C18_meaning_kept_partial`, `C18_or_refuted`, `C18_short_condition_dropped`, `C18_short_refuted`, `C18_having_dropped`, `C18_having_refuted`, `C18_column_refuted` | kept for every text of the intended form without OR on the left outside of parentheses; refuted with OR. A condition of one character behind the last geometry is dropped (C18_short_condition_dropped, C18_short_refuted). A name behind the geometry that contains HAVING is cut in two and the rest of the text dropped (C18_having_refuted). Queries without a geometry are changed, too, if a name behind AND starts with CONTAINS or INTERSECTS (C18_column_refuted). Further hypothesis: parentheses nested less than 65536 deep, because of the 16-bit counter (C18_meaning_kept_partial). |
| C19 Rewriting is exact: text is moved, never altered | partial | `C19_text_is_moved_partial`, `C19_intended_form_partial`, `C19_dollar_refuted` | for texts without $; refuted with $ Further hypothesis: parentheses nested less than 65536 deep, because of the 16-bit counter (C19_intended_form_partial). |
| C20 Parenthesis adjustment removes exactly one enclosing pair | partial | `C20_parenthesis_adjustment_partial`, `C20_unclosed_refuted` | exact characterisation for nesting depth below 65536; an unclosed parenthesis is not rejected |
| C21 Parenthesis depth is counted correctly at any depth | partial | `C21_true_depth_partial`, `C21_depth_wraps_refuted`, `C21_unbalanced_accepted_refuted` | below depth 65536; refuted at 65536 |
| C22 Geometry conditions occur only in top-level WHERE clauses | proved | `C22_no_geometry_in_subqueries` |  |
| C23 Geometry predicates: flag and orientation | partial | `C23_flag_partial`, `C23_formatted_partial`, `C23_accepted_partial`, `C23_any_query`, `C23_any_query_constructor`, `C23_accepted_query_partial`, `C23_other_flag_refused`, `C23_get_predicate`, `C23_predicate_formatted_partial` | Recorded flag is the digit written, or 1 when nothing and no '=' follows; formatted with the flag (every accepted query). All spellings are accepted in every component of every canonical query and of the normal form of every accepted query with usual parts, with or without further conditions, in parentheses, in front of GROUP BY, HAVING, ORDER BY and UNION, and the formatted text does not depend on the spelling. Anything but 0 and 1 behind '=' is refused. Missing: operands that are not usual (SpecUsual.v); texts that are rewritten first and not of the intended form (for that form see C39_behind_conditions_partial). |
| C24 Coordinate systems default to ICRS GEOCENTER | partial | `C24_frame_partial`, `C24_formatted`, `C24_accepted_partial`, `C24_respelt_partial`, `C24_respelt_accepted_partial`, `C24_respelt_query_partial`, `C24_ellipse_refuted`, `C23_any_query`, `C23_any_query_constructor`, `C24_rewritten_partial` | The frame recorded is the one written, ICRS if none; formatted with frame and GEOCENTER. Texts that differ in the spelling of the coordinate systems of any number of POINT, CIRCLE, BOX and POLYGON, anywhere, get the same answer of the parser (and of the constructor, if no geometry stands behind AND). ELLIPSE: every spelling is accepted in the conditions on geometries of canonical queries (C23_any_query); outside of geometries it is a function call whose argument is recorded as written (C24_ellipse_refuted). Texts that are rewritten first: for the intended form (last_geometry), C24_rewritten_partial. Missing: other texts that are rewritten first. |
| C25 Constant coordinate arithmetic is evaluated in IEEE double arithmetic | proved | `C25_ieee_result`, `C25_throws_exactly`, `C25_in_queries` | All pairs of binary64 data, all operators. Uses the standard library's real-number axioms (see DESIGN.md). |
| C26 Union accessors agree with the query | proved | `C26_union_accessors_agree`, `C26_count_wraps_refuted`, `C26_is_union` | fewer than 2^32 components |
| C27 Union index validation | proved | `C27_union_index_validation` |  |
| C28 Table lists are complete | proved | `C28_table_lists_are_complete` |  |
| C29 simplified_columns describes the select list | proved | `C29_simplified_columns_describe_the_select_list` |  |
| C30 simple_spatial_query recognises exactly the simple spatial queries | partial | `C30_simple_spatial_query_partial`, `C30_lower_case_all_refuted` | exact characterisation; the full property is false (lower-case all) |
| C31 geometry and search_condition of a WHERE clause are its conjunction | partial | `C31_conjunction_partial`, `C31_or_refuted` | Holds exactly for search conditions without a top-level OR; refuted with one. |
| C32 Join structure survives formatting | partial | `C32_written_partial`, `C32_read_back_partial`, `C32_accepted_partial` | Grouping, kind, condition and USING columns are those written (every accepted query); canonical joins are read back from their text, and so are the joins of accepted queries if their parts are `usual` (SpecUsual.v). Missing: joins with unusual parts, for some of which it is false (C13 findings). |
| C33 Table-valued functions survive formatting | partial | `C33_no_arguments_refuted`, `C33_arguments_partial` | True for all functions with arguments; false for zero arguments. |
| C34 A query without a geometry after a condition is never rewritten | proved | `C34_not_rewritten`, `C34_not_behind_and`, `C34_behind_where` | C34_not_behind_and, C34_behind_where: a text in which no geometry stands directly behind AND (in particular one whose geometries all stand behind WHERE, as the printer writes them) is not rewritten (SpecBehind.v). |
| C35 Operators keep their written order and association | proved | `C35_operands`, `C35_conditions`, `C35_comparison`, `C35_text` | Operands, operators, signs, connectives stand in the text in the recorded order. |
| C36 Words that merely start with a keyword are not taken for it | partial | `C36_exists_x_refuted`, `C16_column_notes_refuted`, `C36_names_partial` | True for names that do not start with NOT or EXISTS (on the left; any name on the right); false for the others. |
| C37 White space between words does not matter | partial | `C37_white_space_partial`, `C37_accepted_partial`, `C37_query_partial`, `C37_union_refuted`, `C37_string_refuted`, `C37_not_in_refuted`, `C37_not_paren_refuted`, `C37_in_paren_refuted`, `C37_rewritten_partial` | True for all texts related by `spaced` (SpecWhite.v): white space may change everywhere outside of quotes except inside UNION ALL / UNION DISTINCT, between pieces of a string, in the first byte between NOT and IN, and behind `nan(`; false there. For the constructor: when WHERE or CONTAINS/INTERSECTS does not occur (otherwise the rewriting looks at blanks, see C04), or when both texts have the intended form (last_geometry) and their rewritten texts are related (C37_rewritten_partial). White space cannot be left out in front of a parenthesis behind NOT and IN. |
| C38 Accepted queries and their parts can be put together | partial | `C38_united_partial`, `C38_nested_partial`, `C38_assembled_partial`, `C38_nested_refuted` | Proved for the formatted texts of accepted queries and parts that are `usual` (SpecUsual.v), the first query of a union without GROUP BY, HAVING and ORDER BY and the second without WITH. False for a query with a condition on geometries used as a table (C38_nested_refuted). |
| C39 A geometry may be written behind other conditions | partial | `C39_same_answer_partial`, `C39_behind_conditions_partial`, `C39_one_select_partial`, `C39_new_line_refuted`, `C39_short_refuted`, `C39_name_refuted`, `C39_order_refuted`, `C39_union_refuted`, `C39_inner_where_refused`, `C39_inner_where_refuted`, `C39_nowhere_refuted` | Proved for texts of the intended form (last_geometry, SpecRewrite.v: first WHERE, last geometry, one line, nothing but blanks or dropped clauses behind), without '$', with balanced parentheses, in every canonical query. False with a new line inside the conditions in front (C39_new_line_refuted), with '$' (C19_dollar_refuted) and if a GROUP BY, HAVING or ORDER BY follows (C17). False with a condition of one or two characters in front of the geometry (C39_short_refuted). False with a name in the geometry that contains AND (C39_name_refuted) and with a name behind it that starts with GROUP or ORDER (C39_order_refuted). False with a UNION behind the geometry (C39_union_refuted). False if a table in FROM is a subquery with a WHERE (C39_inner_where_refused, C39_inner_where_refuted) or a name ends with WHERE (C39_nowhere_refuted). Further hypothesis: parentheses nested less than 65536 deep, because of the 16-bit counter (C39_same_answer_partial, C39_behind_conditions_partial, C39_one_select_partial, C39_inner_where_refused). |
| C40 Only the uploaded tables named in the text matter | proved | `C40_only_named`, `C40_no_upload`, `C40_new_entry` | All texts and mappings. |
| C41 Accepted queries have matching brackets and closed quotes | partial | `C41_brackets_partial`, `C41_refused_partial`, `C41_rewritten_partial`, `C41_given_partial`, `C41_nan_refuted`, `C41_comment_refuted`, `C41_dropped_refuted` | Proved for every accepted text, as it reaches the grammar, without '--' and without 'nan('; for the round brackets of texts as given without quotes and '$', up to the clauses that the rewriting drops (C41_rewritten_partial, C41_given_partial). False with a comment between the pieces of a string literal (C41_comment_refuted), with nan(...) as a number (C41_nan_refuted), and for the text as given if the rewriting drops a clause (C41_dropped_refuted). Further hypotheses: parentheses nested less than 65536 deep (C41_rewritten_partial), a text of fewer than 65536 characters (C41_given_partial); neither has '--' or 'nan('. |
| C42 The work of the parser grows moderately with the text | partial | `C42_doubling`, `C42_doubling_any`, `C42_unclosed`, `C42_exponential`, `C42_polynomial_refuted` | False: every pair of parentheses around a condition at least doubles the number of rules entered (C42_doubling, C42_doubling_any), so no polynomial bounds the work, not even for accepted queries (C42_polynomial_refuted); n parentheses that are never closed enter at least 14^n rules before the text is refused (C42_unclosed). The work is at most exponential in the length of the text that reaches the grammar (C42_exponential). |
| C43 No text exhausts the parser's stack | partial | `C43_linear`, `C43_nested`, `C43_bounded_refuted` | False: n pairs of parentheses around a column, in an accepted query, open at least 2 n rules at the same time (C43_nested, C43_bounded_refuted). The depth is at most linear in the length of the text that reaches the grammar (C43_linear). |
| C44 Writing through the accessors changes the addressed component only | partial | `C44_written`, `C44_top_partial`, `C44_select_partial`, `C44_members_partial`, `C44_constructed_partial` | Everything about the components, clauses and texts is proved for every accepted query with fewer than 2^32 components (C44_written). That the limit is read back from the formatted text is proved for queries whose parts are `usual` (SpecUsual.v), for ADQL_parser (C44_top_partial). For the constructor if no geometry of the formatted text stands behind AND (C44_constructed_partial). Further hypotheses where they are stated (C44_top_partial, C44_select_partial, C44_members_partial, C44_constructed_partial): a number format that formats its own results alike, and a mapping whose uploaded names can be read as names (upload_name). |
| C45 A query is empty exactly if it was not read from a text | proved | `C45_empty`, `C45_default_text` | The text of a default constructed query is refused (C45_default_text). |
| C46 The search in front of the parser takes polynomial time | proved | `C46_same_search`, `C46_polynomial`, `C46_reached`, `C46_fourth_power_refuted` | Steps are calls of the matcher of Regex.v, which gives the same answer (C46_same_search). At most 15000 (l+1)^5 (C46_polynomial); n blocks WHERE xxxANDCONTAINSANDxxHAVING and four new lines take at least n^5/5 (C46_reached), so that no multiple of the fourth power bounds them (C46_fourth_power_refuted). |
| C47 No text exhausts the stack during the search in front of the parser | partial | `C47_linear`, `C47_where`, `C47_bounded_refuted` | False: the depth is at least twice the length of the line behind the first WHERE (C47_where), so that a long number in an accepted query without any nesting exceeds every bound (C47_bounded_refuted). It is at most 2 l + 158 (C47_linear). How much stack a call takes is not modelled. |
| C48 Moving the geometry to the front does not blow up the text | partial | `C48_no_dollar_partial`, `C48_square_partial`, `C48_linear_refuted` | False as stated: with $` in a string literal the text grows with the square of its length, for accepted queries as well, and no linear bound holds. Proved: at most four characters for every text without '$', at most l*(l+4) for every text of length l. |
| C49 The formatted text of an accepted query is one statement | partial | `C49_one_statement_partial`, `C49_text_partial`, `C49_select`, `C49_comment_refuted`, `C49_lost_end_refuted` | False as stated: 'a - -b' is written 'a--b', a comment, which may hide the opening quote of a literal so that its text is read as code. Proved for every accepted query in which no minus sign is followed by a minus sign (in the tree, and in terms of the parsed text), with mapped names that are harmless and numbers written as numbers. C49_select holds for every query. |
| C50 The formatted text is proportional to the text that was given | partial | `C50_parsed`, `C50_given_partial`, `C50_linear_refuted` | Proved with the factor M + 8 for the text that is parsed (C50_parsed), hence for all texts without '$' (C50_given_partial). False for texts with '$', whose rewriting can square the length (C50_linear_refuted, from C48). |
| C51 A SELECT statement can be rebuilt from what the accessors return | partial | `C51_rebuilt_partial`, `C51_constructed_partial` | Proved for accepted queries with usual parts (SpecUsual.v), for the grammar (C51_rebuilt_partial) and for the constructor if the rebuilt statement has no WHERE or no geometry behind AND (C51_constructed_partial); missing: unusual parts and statements that the constructor rewrites. Further hypotheses where they are stated (C51_rebuilt_partial, C51_constructed_partial): a number format that formats its own results alike, and a mapping whose uploaded names can be read as names (upload_name). |
| C52 No part of an accepted query reports itself as empty() | proved | `C52_not_empty`, `C52_empty_name_refuted` | Every part with an empty() that can be linked (Join_Suffix::empty() cannot). Without the condition on the mapping the statement is false (C52_empty_name_refuted). |
| C53 Coordinates survive to_string | partial | `C53_survives`, `C53_fewer_digits`, `C53_six_digits_refuted`, `C53_geometry_partial` | The doubles: proved for all, given correct rounding in both directions (the C++ stream and qi::double_ are not modelled; what they must do is stated in SpecDigits.v); with 16 digits or fewer it is false, so operator<< on a fresh stream (6 digits) loses coordinates. The queries: with usual parts, like C13. Uses the four axioms of the standard library's reals. |
| C54 Accepted queries consist of ordinary characters outside of quotes | partial | `C54_usable_partial`, `C54_refused_partial`, `C54_rewritten_partial`, `C54_given_partial`, `C54_nan_refuted`, `C54_comment_refuted`, `C54_dropped_refuted` | Proved for every accepted text, as it reaches the grammar, without '--' and without 'nan('; such a byte outside of quotes makes a text without WHERE, or in which no geometry stands behind AND, unacceptable; for texts of the form that is rewritten (last_geometry), whose parts close their quotes, all that reaches the query is proved to be ordinary (C54_rewritten_partial), and for all texts without quotes and '$' (C54_given_partial). False with a comment between the pieces of a string literal, with nan(...) as a number, and for the text as given if the rewriting drops a clause (order by a;drop is accepted). |
| C55 The tree of an accepted query is not larger than its text allows | partial | `C55_parsed`, `C55_given_partial`, `C55_square_partial`, `C55_linear_refuted` | At most 17 parts per character of the text that is parsed (C55_parsed), hence a linear bound for texts without '$' (C55_given_partial) and a quadratic one for all texts (C55_square_partial). False as stated for texts with '$': $3 on the left of the geometry stands for the condition on its right, so that a tree can be quadratic in the text (C55_linear_refuted). |
| C56 Flat queries have flat trees | partial | `C56_parsed`, `C56_given_partial`, `C56_flat`, `C56_bounded_refuted` | False as stated: every AND or OR nests the rest of the condition one level deeper, so that k + 1 conditions in a row without any bracket nest at least k + 1 parts (C56_flat, C56_bounded_refuted). Proved: the nesting is less than 17 times the length of the text that is parsed (C56_parsed), or of the text that was given, plus 4, if it has no '$' (C56_given_partial). |
| C57 A rewritten text is not rewritten again | partial | `C57_once_partial`, `C57_moved_partial`, `C57_single_partial`, `C57_again_refuted` | Proved for every text without '$' in which at most one CONTAINS or INTERSECTS occurs (C57_single_partial), and for texts of the form that is rewritten (last_geometry) with none in front of the geometry that is moved. False with a name like containsx behind AND in front of the geometry: the text is accepted, the rewritten text is refused (C57_again_refuted). Further hypothesis: parentheses nested less than 65536 deep, because of the 16-bit counter (C57_moved_partial). |
| C58 A geometry stays in the SELECT in which it was written | partial | `C58_first_where`, `C58_condition_moved`, `C58_union_refuted`, `C58_condition_refuted`, `C58_having_refuted`, `C58_in_place_partial`, `C58_right_partial`, `C58_read_partial` | False as stated: a geometry behind AND is moved to the first WHERE of the text (C58_first_where, for all texts of this form), so that an accepted union filters the wrong SELECT (C58_union_refuted), and a geometry in HAVING becomes one of WHERE (C58_having_refuted). If the UNION follows the geometry, the conditions in front of it go to the second SELECT (C58_condition_moved, C58_condition_refuted). Proved for texts in which no geometry stands behind AND (C58_in_place_partial). If another condition follows the geometry, the left condition is not carried over a UNION behind it (C58_right_partial: equality with the query of the reordered text; a UNION inside the left condition is not excluded and still misplaces the geometry). Further hypothesis: parentheses nested less than 65536 deep, because of the 16-bit counter (C58_first_where, C58_condition_moved, C58_right_partial). C58_read_partial: an accepted text of the form that is rewritten (last_geometry, balanced, without '$') is read as the reordered text, part by part; the same depth hypothesis. |

## Findings

Behaviour that a user of the library would not expect; witnesses are `..._refuted` theorems where a name is given.

1. TOP, ATAN, ATAN2, ASIN, AREA, INTERSECTS are accepted as identifiers: a shorter or later word in the reserved
   word list shadows them (`C05_shadowed_refuted`).  ELLIPSE is not reserved.
2. The rewriting drops everything behind the WHERE clause: GROUP BY, HAVING, ORDER BY are lost without an
   error (`C17_clauses_behind_refuted`, `C17_rest_is_ignored`).
3. The moved text is used as a format string: `$1`, `$&` in literals are expanded (`C19_dollar_refuted`); text inside
   string literals is rewritten (`C08_literal_rewritten_refuted`); a newline or a second blank behind WHERE, or a newline
   at the end, disables the rewriting (`C04_newline_behind_refuted`).
4. OR on the left changes its meaning (`C18_or_refuted`); `G AND x OR y` is recorded as G and (x or y)
   (`C31_or_refuted`).
5. The depth of parentheses is a 16 bit number and wraps (`C21_depth_wraps_refuted`); an unclosed parenthesis is not
   rejected (`C20_unclosed_refuted`).
6. `simple_spatial_query` compares the quantifier with `"ALL"`: lower case `all` is not recognised
   (`C30_lower_case_all_refuted`).
7. `TOP 18446744073709551615` is lost in the formatted query (`C11_largest_top_lost_refuted`).
8. `where notes=1` is recorded and formatted as `not notes = 1` (`C16_column_notes_refuted`, `C14_stray_not_refuted`).
9. Columns whose name begins with true, false or current_timestamp, and `cot`, cannot be used as values
   (`C06_word_rejected_refuted`).
10. A column that starts with `exists` cannot be used in a condition (`C36_exists_x_refuted`); likewise
    `x in (selected, b)`, `x in (within)`, and `on x inner join c` with a bare boolean x, because the keyword
    rules throw.
11. A table function without arguments is accepted, and formatted to text that is refused (`C33_no_arguments_refuted`).
12. `(a join b) as c` is refused; `UNION  ALL` with two blanks is refused; the prefix TAP_UPLOAD is matched with
    regard to letter case, and any other spelling is refused because tap_upload is a reserved word (`C12_upload_refuted`).
13. A TAP_UPLOAD table that is mapped to the empty text disappears from the formatted query
    (`C15_empty_table_name_refuted`).
14. The number of union components is computed in 32 bits (`C26_count_wraps_refuted`).
15. A blank behind a final `cot` makes the query acceptable (`C04_blank_behind_refuted`).
16. `a - -b` is formatted as `a--b`, which is a comment in SQL, and between string literals also here
    (`C13_minus_minus_refuted`).
17. Blanks inside the quotes of a table function argument are dropped; parentheses around a lone geometry
    condition are dropped; `contains(p,q) anda=1` is accepted; `where (a)+b=1` is accepted but `where (a)+b` is refused.
18. The rewriting can move a keyword into a delimited upload name, so that letter case of keywords decides
    about acceptance (`C12_keyword_refuted`).
19. In shapes, `inf` and `nan` are columns unless an operator follows (`inf+2`).
20. The formatted text of an accepted query can be refused, because formatting makes the rewriting applicable
    (`C13_reread_refuted`).
21. `evaluate()` throws for `/` only if the divisor is zero; overflow gives an infinity (`C25_throws_exactly`).
22. White space matters in three places: `UNION ALL` needs exactly one blank (`C37_union_refuted`), pieces of a string
    literal may be separated by blanks and new lines but not by a tabulator (`C37_string_refuted`), and the byte
    between NOT and IN becomes part of the structure (`C37_not_in_refuted`).
23. A query with a condition on geometries is accepted, but not as a table or subquery of another one (`C38_nested_refuted`).
24. `ellipse` is not a reserved word: outside of geometries `ellipse('icrs',a)` is a call of a function (`C24_ellipse_refuted`).
25. Where a number may stand in a shape, `nan(` followed by anything up to `)` is one number.
26. With a new line inside the conditions in front of a geometry nothing is moved, and the query is refused
    (`C39_new_line_refuted`); a single new line directly in front of the AND does no harm.
27. Comments between the pieces of a string literal and numbers of the form `nan(...)` may contain unmatched brackets
    and quotes (`C41_comment_refuted`, `C41_nan_refuted`); an ORDER BY clause that the rewriting drops is not looked at,
    `order by (` is accepted (`C41_dropped_refuted`).
28. `b in(1)` without a blank behind IN is refused, and so is `not(b=1)` (`C37_in_paren_refuted`, `C37_not_paren_refuted`).
29. The time to parse is exponential in the number of redundant parentheses around a condition: `boolean_term |
    boolean_factor` reads the condition twice, and the five predicates in front of `'(' search_condition ')'` read it
    again (`C42_doubling`, `C42_polynomial_refuted`).  With parentheses that are never closed every one of them
    multiplies the work by 14 or more (`C42_unclosed`): `WHERE ((((((((((` enters more than 2*10^11 rules before it is
    refused, so that a text of a few dozen characters keeps the parser busy for years.
30. The parser recurses once or more per open parenthesis, without a limit (`C43_nested`): a long accepted query such
    as `SELECT * FROM t WHERE ((((a)))) = 1` with enough parentheses exhausts the stack although its work is small.
31. `Query::simplified_columns_list` is declared (Query.hxx:26-27) and defined nowhere, so that calling it cannot be linked.
32. The regular expression search in front of the parser is a backtracking one, of the fifth degree in the length of the
    text (`C46_polynomial`, `C46_reached`), and recurses at least twice per character behind WHERE (`C47_where`): an
    ordinary query with a long condition, for instance a long list behind IN, exhausts the stack before it is parsed
    (`C47_bounded_refuted`).
33. The condition is used as a format string of `std::regex_replace`, so that `` $` `` in a string literal stands for all
    of the text in front of WHERE: the text handed to the parser can be as long as the square of the one given
    (`C48_linear_refuted`), and the query then compares with another string than the one that was written.
34. **SQL comment out of two minus signs.** Operator and sign are written without a blank, so that `a - -b` (or `1 - -2` in a
    coordinate) is formatted as `a--b`, where a database sees a comment up to the end of the line. The rest of the query is
    lost (`C49_lost_end_refuted`); if a string literal further on contains a newline, the text behind it is read as code, with
    a semicolon of the caller's choice (`C49_comment_refuted`): the formatted text is open to injection. Without a minus sign
    in front of a minus sign the formatted text is one statement (`C49_one_statement_partial`, `C49_text_partial`).
35. `empty(const Table_Reference_Wrap &)` (Table_Reference_Wrap.hxx:11) and `empty(const Join_Suffix_Wrap &)`
    (Join_Suffix_Wrap.hxx:10) are declared and defined nowhere, so that `Join_Suffix::empty()` (Join_Suffix.hxx:15) and the
    stream operator of `Correlation_Join` cannot be linked when used. A table mapped to the empty name makes its part empty()
    (`C52_empty_name_refuted`).
36. `operator<<` writes the coordinates of a shape with the precision of the stream, 6 digits unless the caller sets it: of the
    double after 1 only `1` is left (`C53_fewer_digits`, `C53_six_digits_refuted`). `to_string` sets 17, which is enough for every double
    (`C53_survives`) and the least number that is; 16 would lose the double after 1, too.
37. A second statement is accepted behind an ORDER BY, GROUP BY or HAVING that the rewriting drops, `… and contains(p,q) order by a;drop …`
    (`C54_dropped_refuted`); it does not reach the query. Elsewhere a semicolon outside of quotes is refused (`C54_refused_partial`),
    except in `nan(;)` and in a comment between the pieces of a string.
38. `$3` in the condition on the left of a geometry is replaced by the condition on its right (`std::regex_replace` takes the condition as a format
    string), outside of quotes too: `… WHERE $3 OR $3 OR b = 1 AND CONTAINS(p,q)=1 AND b = b+b` is accepted, and the tree of an accepted query can be
    quadratic in its text (`C55_linear_refuted`).
39. A condition `c1 AND c2 AND …` is stored as c1 and the rest of the condition, which contains the rest of the rest (Boolean_Term.hxx): a flat text
    makes a tree as deep as it has conditions, and `operator<<` and the destructor recurse as deeply (`C56_flat`, `C56_bounded_refuted`).
40. The regular expression in Query.cxx:20 wants three characters on the left of the geometry (`[^ ].+[^ ]`) and two on its right (`[^ ].+?`).
    A condition of one character behind the geometry is silently dropped, `… where a=1 and contains(p,q)=1 and b` is read like
    `… where a=1 and contains(p,q)=1` (`C18_short_condition_dropped`, `C18_short_refuted`), unless a blank follows (`C04_short_refuted`); a dangling
    AND is accepted there. A condition of one or two characters in front of it is refused (`C39_short_refuted`).
41. The regular expression finds AND, HAVING, GROUP and ORDER inside of names and string literals. `… where a=1 and contains(p,q)=1 and c=d and shaving>2`
    is accepted and read as `… and c=d and s` (`C18_having_dropped`, `C18_having_refuted`). A geometry with a column `band` behind AND is refused (`C39_name_refuted`), and so
    is `c = groups` behind a geometry behind AND (`C39_order_refuted`).
42. The regular expression takes a name that starts with CONTAINS or INTERSECTS for a geometry. `… where b=1 and containsx=2 and contains(p,q)` is accepted,
    but `… where contains(p,q) and b=1 and containsx=2`, which is what reaches the grammar, is rewritten to a text that is refused
    (`C57_again_refuted`).
    Queries without any geometry are affected: `where a=1 and containsx=2 order by b` loses its ORDER BY (`C17_column_refuted`), and
    `where a = 1 or b = 2 and containsx = 2` is read as `containsx = 2 and a = 1 or b = 2` (`C18_column_refuted`).
43. A UNION behind a geometry that stands behind another condition is refused (`C39_union_refuted`), or accepted with the conditions in the wrong
    SELECT (finding 45). If another condition follows the geometry in front of the UNION, the text is read with the three conditions in front of the
    UNION (`C58_right_partial`).
44. The regular expression starts at the first `WHERE `, also in a subquery or at the end of a name: `select * from (select a from t where b=1) as u where c=1 and
    contains(p,q)` is refused because of its brackets (`C39_inner_where_refused`, `C39_inner_where_refuted`), and `select nowhere from t where a=1 and contains(p,q)`
    is refused, too (`C39_nowhere_refuted`).
45. **A geometry in the wrong SELECT.** A geometry behind AND is moved to the first WHERE of the whole text (`C58_first_where`):
    `select a from t where x=1 union select b from u where c=1 and contains(p,q)` is accepted and read as
    `select a from t where contains(p,q)=1 and x=1 union select b from u where c=1` (`C58_union_refuted`). A geometry in HAVING behind AND becomes a condition
    of WHERE (`C58_having_refuted`).
    `select a from t where a=b and contains(p,q) union select b from u where x=1` is read as
    `select a from t where contains(p,q)=1 union select b from u where x=1 and a=b` (`C58_condition_moved`, `C58_condition_refuted`).

## Testing the theorems

`seeded/LOG.jsonl` records edits of the model (wrong programs) and which theorems fail on them;
`seeded/mutate.py` applies them to a copy of the tree outside /verif and rebuilds.
Edits that no theorem noticed led to stronger theorems (noted in the log).
