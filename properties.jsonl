{"id": "C01", "title": "Constructing a Query always terminates", "statement": "For every input text and every TAP_UPLOAD table mapping, the grammar stage of ADQL::Query(input, table_mapping) finishes: it either yields a Query_Specification or reports an error. It never recurses without consuming input and never iterates a repetition that consumes nothing.", "quantifier": "every input string, every table mapping, every rule of the recursive grammar", "why_tests_cant": "A finite list of queries can not rule out an input that sends the mutually recursive rules into a loop; termination is a statement about all inputs.", "anchors": ["src/Query/ADQL_parser/ADQL_parser/init_*.cxx (all rules)", "src/Query/Query.cxx: parse_it"]}
{"id": "C02", "title": "An accepted query has been read to its end", "statement": "If Query(input, mapping) returns normally, then everything of the text handed to the grammar, except trailing white space, was consumed by the grammar: no trailing text is silently ignored. If the grammar stops earlier, construction throws and the message quotes exactly the unread text.", "quantifier": "every input string and table mapping", "why_tests_cant": "Silent truncation shows up only for inputs where the grammar stops early in a place nobody thought to test.", "anchors": ["src/Query/Query.cxx: parse_it, Query::Query"]}
{"id": "C03", "title": "Every rejection points into the user's text", "statement": "Every failure to build a Query is one of: a parenthesis error of the rewriting step, a missing TAP_UPLOAD table, an expectation failure, 'Expecting <SELECT>' or 'Unexpected terms at the end'; and the text quoted in the last three kinds is a suffix of the text handed to the grammar (never invented, never out of range).", "quantifier": "every rejected input and table mapping", "why_tests_cant": "Error positions are produced at every expectation point of the grammar, at any nesting depth; tests look at a few messages at most (the repository's tests look at none).", "anchors": ["src/Query/Query.cxx: parse_it 140-154", "src/Query/ADQL_parser/ADQL_parser/init_query.cxx: on_error 134-143"]}
{"id": "C04", "title": "Surrounding white space is irrelevant", "statement": "Adding or removing white space before or after a query changes neither whether it is accepted nor the resulting Query_Specification.", "quantifier": "every query text, every table mapping, every white-space prefix and suffix", "why_tests_cant": "Needs to hold for every query, in particular for those that go through the regular-expression rewriting, where white space is significant.", "anchors": ["src/Query/Query.cxx: 19-21, parse_it 140-154"]}
{"id": "C05", "title": "Reserved words are not identifiers", "statement": "No word of the SQL or ADQL reserved lists, in any mixture of upper and lower case, is accepted as an (undelimited) identifier; and conversely a word made of letters, digits and underscores starting with a letter that is not a reserved word is accepted as an identifier, even when it has a reserved word as a proper prefix.", "quantifier": "all reserved words in all 2^n letter-case spellings; all non-reserved words", "why_tests_cant": "The set of words is infinite, and the check is an ordered choice in which an earlier shorter word can hide a later longer one.", "anchors": ["src/Query/ADQL_parser/ADQL_parser/init_identifier.cxx: keyword, regular_identifier 25-33", "src/Query/ADQL_parser/ADQL_parser/init_reserved_words.cxx"]}
{"id": "C06", "title": "Any non-reserved identifier can be used as a column name", "statement": "A regular identifier that is not a reserved word, written as an expression (for example the only item of a select list), is read as a reference to the column of that name.", "quantifier": "every non-reserved regular identifier and every following text", "why_tests_cant": "Failures depend on the prefix of the identifier (for example the literal words that are tried before column references).", "anchors": ["src/Query/ADQL_parser/ADQL_parser/init_factor.cxx: value_expression_primary, numeric_value_function", "src/Query/ADQL_parser/ADQL_parser/init_literals.cxx: boolean_literal", "src/Query/ADQL_parser/ADQL_parser/init_trig.cxx"]}
{"id": "C07", "title": "Delimited identifiers are kept verbatim", "statement": "A delimited identifier (double quotes, inner double quotes doubled, any other bytes) is accepted as one identifier and appears in the result exactly as written, quotes included, and the identifier ends at its closing quote.", "quantifier": "every non-empty sequence of bytes and doubled quotes between double quotes, and every following text that does not start with a double quote", "why_tests_cant": "The body ranges over arbitrary bytes.", "anchors": ["src/Query/ADQL_parser/ADQL_parser/init_identifier.cxx: delimited_identifier 38-46"]}
{"id": "C08", "title": "String literals are kept verbatim", "statement": "A character string literal (single quotes, inner quotes doubled, any other bytes including spaces, keywords and comment markers) is read as one value and appears in the formatted query byte for byte as written.", "quantifier": "every byte sequence between single quotes with inner quotes doubled", "why_tests_cant": "The body ranges over arbitrary bytes, including those that look like keywords or operators.", "anchors": ["src/Query/ADQL_parser/ADQL_parser/init_literals.cxx: character_string_literal 43-60"]}
{"id": "C09", "title": "Numeric literals are kept verbatim", "statement": "An unsigned numeric literal (integer, decimal with optional fraction, leading point, optional exponent with optional sign) used as a value expression is taken up to its last character and kept with exactly the digits written, without rounding.", "quantifier": "every numeric literal of any length", "why_tests_cant": "Digits strings of unbounded length; rounding and cut-off errors only show for particular lengths and shapes.", "anchors": ["src/Query/ADQL_parser/ADQL_parser/init_literals.cxx: 25-41"]}
{"id": "C10", "title": "TAP_UPLOAD tables are always replaced by their mapping", "statement": "Every TAP_UPLOAD.<name> in a table or column position is replaced by the mapped table name; a name that is not in the mapping makes construction throw an error naming that table; no accepted query retains an unmapped TAP_UPLOAD table. A different spelling of the TAP_UPLOAD prefix is not treated as an ordinary schema name.", "quantifier": "every query, every table mapping, every identifier after TAP_UPLOAD.", "why_tests_cant": "Ranges over all mappings and names, including delimited ones; the lookup also happens on branches of the grammar that are later abandoned.", "anchors": ["src/Query/ADQL_parser/ADQL_parser/init_column_reference.cxx: checked_mapping 6-13, tap_upload 38-46"]}
{"id": "C11", "title": "TOP n is honoured exactly", "statement": "SELECT TOP n with n a decimal number gives a Select whose top is n when n < 2^64 and is rejected otherwise; formatting a Select prints TOP n exactly when a TOP was given, with the same value.", "quantifier": "every n, of any number of digits, with any leading zeros", "why_tests_cant": "Overflow boundary and the sentinel value used for 'no TOP' are single points among 2^64.", "anchors": ["src/Query/ADQL_parser/ADQL_parser/init_query.cxx: select 88-97", "src/Query/Query_Specification/Select.hxx: 18-28, 50-63"]}
{"id": "C12", "title": "Keywords are case-insensitive", "statement": "Changing the letter case of the keywords of a query does not change whether it is accepted nor its structure; formatted text may differ only in letter case.", "quantifier": "every query and every re-spelling of its keywords in another letter case", "why_tests_cant": "2^n spellings for each of an infinite set of queries.", "anchors": ["src/Query/ADQL_parser/ADQL_parser/init_*.cxx: ascii::no_case uses", "src/Query/ADQL_parser/ADQL_parser/init_column_reference.cxx: 43"]}
{"id": "C13", "title": "Formatting and parsing again gives the same query", "statement": "If a query specification in canonical spelling is formatted with operator<< and the text is given to the parser, the same specification is obtained.", "quantifier": "every query specification (all expression, predicate, join and subquery nestings of any depth)", "why_tests_cant": "Structures of unbounded depth; the repository's tests check one formatting round on about a hundred queries.", "anchors": ["src/Query/Query_Specification/**/*.hxx operator<<", "src/Query/ADQL_parser/ADQL_parser/init_*.cxx", "test/parse_adql.cxx: 13-45"]}
{"id": "C14", "title": "The formatted query has the same content as the input", "statement": "For an accepted query, the formatted text consists of the same words, literals, identifiers, operators and punctuation in the same order as the text that was parsed, except for a fixed list of documented normalisations (letter case of keywords, the optional AS of table aliases, default geometry arguments, numeric coordinates, TAP_UPLOAD names). Nothing is lost, duplicated, reordered or invented.", "quantifier": "every accepted query text and every table mapping", "why_tests_cant": "A lost or swapped operand affects only queries using the construct in a particular combination; all queries must be covered.", "anchors": ["src/Query/Query_Specification/**/*.hxx operator<<", "src/Query/ADQL_parser/ADQL_parser/init_*.cxx"]}
{"id": "C15", "title": "No clause that was parsed is left out of the formatted text", "statement": "If parsing recorded a WHERE, GROUP BY, HAVING, ORDER BY, WITH, ELSE or ON/USING clause then the formatted query contains that clause; if it did not, the formatted query contains none.", "quantifier": "every accepted query", "why_tests_cant": "The printers decide by recursive empty() tests over nested variants whose default values count as empty; whether a parsed value can look empty is a statement about all values the parser can build.", "anchors": ["src/Query/Query_Specification.hxx:75-87", "src/Query/Query_Specification/**/empty.cxx", "src/Query/Query_Specification/Where.hxx"]}
{"id": "C16", "title": "A condition is negated only if the user wrote NOT", "statement": "In an accepted query a boolean factor is recorded (and formatted) as negated if and only if the keyword NOT was written in front of it.", "quantifier": "every search condition", "why_tests_cant": "Failing cases depend on how names happen to start; no finite list of names covers them.", "anchors": ["src/Query/ADQL_parser/ADQL_parser/init_search_condition.cxx: boolean_factor 31-32", "src/Query/Query_Specification/Search_Condition/Boolean_Factor.hxx"]}
{"id": "C17", "title": "Rewriting a geometry-last WHERE clause keeps the clauses behind it", "statement": "When a search condition is written before a CONTAINS/INTERSECTS condition, the text handed to the grammar still contains everything that followed the WHERE clause (GROUP BY, HAVING, ORDER BY).", "quantifier": "every input text the rewriting applies to", "why_tests_cant": "Concerns all texts matched by the regular expression; the repository's tests only check that the result parses.", "anchors": ["src/Query/Query.cxx: 19-21, tweak_input_string 113-134"]}
{"id": "C18", "title": "Rewriting keeps the meaning of the WHERE clause", "statement": "When the rewriting moves a geometry condition in front of the other conditions, the truth value of the WHERE clause (with AND binding tighter than OR) is unchanged for every assignment of truth values to the elementary conditions.", "quantifier": "all conjunction/disjunction sequences before and after the geometry condition, all truth assignments", "why_tests_cant": "All formulas and all assignments.", "anchors": ["src/Query/Query.cxx: 113-134"]}
{"id": "C19", "title": "Rewriting is exact: text is moved, never altered", "statement": "If the rewriting does not apply the text reaches the grammar unchanged; if it applies, the new text consists of the text before WHERE, the geometry condition, the left condition and the right condition, each copied byte for byte.", "quantifier": "every input text, in particular every byte that can occur inside literals", "why_tests_cant": "The replacement text is interpreted by regex_replace; only particular characters trigger it.", "anchors": ["src/Query/Query.cxx: tweak_input_string 113-134"]}
{"id": "C20", "title": "Parenthesis adjustment removes exactly one enclosing pair", "statement": "When the conditions around the geometry are enclosed in one pair of parentheses, the adjustment removes exactly that opening and that closing parenthesis and nothing else; without an enclosing pair, nothing is changed; unbalanced conditions are rejected.", "quantifier": "all left, geometry and right condition texts", "why_tests_cant": "Arbitrary texts with arbitrary nesting.", "anchors": ["src/Query/Query.cxx: check_and_adjust_parens 36-95"]}
{"id": "C21", "title": "Parenthesis depth is counted correctly at any depth", "statement": "The parenthesis adjustment classifies its input by the true nesting depth, for any nesting depth.", "quantifier": "all nesting depths", "why_tests_cant": "The counter is 16 bits wide; the failing depth is 65536.", "anchors": ["src/Query/Query.cxx: check_and_adjust_parens 36-95"]}
{"id": "C22", "title": "Geometry conditions occur only in top-level WHERE clauses", "statement": "In an accepted query no subquery (IN, EXISTS, derived table, WITH, at any nesting depth) carries a geometry in its WHERE clause.", "quantifier": "every accepted query, every nesting depth", "why_tests_cant": "Unbounded nesting.", "anchors": ["src/Query/ADQL_parser/ADQL_parser/init_query.cxx: where_no_geometry 54-57, query_no_geometry, subquery"]}
{"id": "C23", "title": "Geometry predicates: flag and orientation", "statement": "CONTAINS/INTERSECTS may be written alone, with '= 0|1' behind or with '0|1 =' in front; the recorded flag is the digit written, or 1 if none was written, any other right-hand side is rejected, and the formatted predicate carries that flag.", "quantifier": "every geometry predicate and every following text", "why_tests_cant": "All operand expressions and continuations.", "anchors": ["src/Query/ADQL_parser/ADQL_parser/init_geometry.cxx: 76-87", "src/Query/Query_Specification/Geometry.hxx"]}
{"id": "C24", "title": "Coordinate systems default to ICRS GEOCENTER", "statement": "A coordinate-system argument may name a frame (icrs, j2000, galactic) and the position geocenter in any letter case, each may be omitted, and an omitted part (or an omitted argument) means ICRS resp. GEOCENTER in the result and in the formatted text.", "quantifier": "all letter-case spellings and spacings of the coordinate-system argument", "why_tests_cant": "2^n spellings; arbitrary spacing.", "anchors": ["src/Query/ADQL_parser/ADQL_parser/init_point_or_column.cxx: 13-25", "src/Query/Query_Specification/Geometry/Coord_Sys.hxx"]}
{"id": "C25", "title": "Constant coordinate arithmetic is evaluated in IEEE double arithmetic", "statement": "Binary_Arithmetic_Expression::evaluate returns the IEEE-754 double result of the operator applied to the two operands in order, throws if and only if the operator is '/' and the divisor is (plus or minus) zero, or the operator is unknown.", "quantifier": "all pairs of doubles (including signed zeros, infinities, NaN) and all operator strings", "why_tests_cant": "2^128 operand pairs.", "anchors": ["src/Query/Query_Specification/Binary_Arithmetic_Expression.hxx"]}
{"id": "C26", "title": "Union accessors agree with the query", "statement": "get_num_select_from_wheres (number of union components) equals one plus the number of UNION addons; component i is the i-th SELECT in textual order, and union operator i-1 is the one written between component i-1 and i; union operators of accepted queries are UNION, UNION ALL or UNION DISTINCT up to letter case.", "quantifier": "every accepted query with fewer than 2^32 components and every valid index", "why_tests_cant": "Any number of union members.", "anchors": ["src/Query/Query_Specification/Select_From_Where_List.hxx: 50-99"]}
{"id": "C27", "title": "Union index validation", "statement": "For every index that is out of range the union accessors throw instead of reading outside the list, and for every index in range they do not throw.", "quantifier": "every query specification and every unsigned index", "why_tests_cant": "2^32 indices for every list length; one accessor treats index 0 specially.", "anchors": ["src/Query/Query_Specification/Select_From_Where_List.hxx: 37-99"]}
{"id": "C28", "title": "Table lists are complete", "statement": "The combined table list of a query is the concatenation, in textual order, of the FROM lists of all union components; the per-component table lists have one entry per component.", "quantifier": "every query specification", "why_tests_cant": "Any number of components and tables.", "anchors": ["src/Query/Query_Specification/Select_From_Where_List.hxx: 101-128"]}
{"id": "C29", "title": "simplified_columns describes the select list", "statement": "simplified_columns has one (expression, alias) pair per select item in order: the alias given by AS if there is one, else the text of the expression itself; for 'SELECT *' it is the single pair ('*','').", "quantifier": "every select list", "why_tests_cant": "Any number and shape of select items.", "anchors": ["src/Query/simplified_columns.cxx: 1-38"]}
{"id": "C30", "title": "simple_spatial_query recognises exactly the simple spatial queries", "statement": "simple_spatial_query is true exactly for an accepted query with one SELECT (no UNION), no DISTINCT, no search condition besides the geometry, and no WITH / GROUP BY / HAVING / ORDER BY clause; writing the default quantifier ALL (in any letter case) makes no difference.", "quantifier": "every accepted query", "why_tests_cant": "A conjunction of many independent conditions over all queries.", "anchors": ["src/Query.hxx: 31-41"]}
{"id": "C31", "title": "geometry and search_condition of a WHERE clause are its conjunction", "statement": "For an accepted WHERE clause with a geometry condition and a search condition, the clause is true exactly when both the recorded geometry and the recorded search condition are true (with AND binding tighter than OR in the text).", "quantifier": "every WHERE clause, all truth assignments", "why_tests_cant": "All formulas.", "anchors": ["src/Query/ADQL_parser/ADQL_parser/init_query.cxx: where 43-52", "src/Query/Query_Specification/Where.hxx"]}
{"id": "C32", "title": "Join structure survives formatting", "statement": "The grouping of joins expressed with parentheses is part of the result and reappears in the formatted text; join kind (NATURAL, INNER, LEFT/RIGHT/FULL [OUTER]), join condition and USING columns stay attached to the join they were written for.", "quantifier": "every join expression, any nesting", "why_tests_cant": "Unbounded nesting of joins.", "anchors": ["src/Query/ADQL_parser/ADQL_parser/init_join.cxx", "src/Query/Query_Specification/Joined_Table.hxx"]}
{"id": "C33", "title": "Table-valued functions survive formatting", "statement": "A table-valued function accepted in a FROM clause is formatted to text that is accepted again with the same function name and arguments, for any number of arguments including zero.", "quantifier": "every function name, every argument list", "why_tests_cant": "Any number of arguments; zero is the corner.", "anchors": ["src/Query/ADQL_parser/ADQL_parser/init_predicate.cxx: table_valued_function", "src/Query/Query_Specification/Table_Valued_Function.hxx"]}
{"id": "C34", "title": "A query without a geometry after a condition is never rewritten", "statement": "If the text contains neither CONTAINS nor INTERSECTS (in any letter case), or contains no WHERE, the text reaches the grammar unchanged.", "quantifier": "every such text", "why_tests_cant": "All texts.", "anchors": ["src/Query/Query.cxx: tweak_input_string 113-134"]}
{"id": "C35", "title": "Operators keep their written order and association", "statement": "Arithmetic and concatenation operators, comparison operators, AND/OR chains are recorded in textual order, with each operand attached to the operators next to it; signs belong to the operand they precede.", "quantifier": "every expression, any length", "why_tests_cant": "Unbounded chains.", "anchors": ["src/Query/ADQL_parser/ADQL_parser/init_value_expression.cxx", "src/Query/ADQL_parser/ADQL_parser/init_search_condition.cxx", "src/Query/ADQL_parser/ADQL_parser/init_predicate.cxx"]}
{"id": "C36", "title": "Words that merely start with a keyword are not taken for it", "statement": "In a search condition, an operand or condition whose name merely starts with a keyword (NOT, EXISTS, IN, IS, BETWEEN ...) is treated as a name.", "quantifier": "every name with a keyword as a proper prefix", "why_tests_cant": "Infinitely many names.", "anchors": ["src/Query/ADQL_parser/ADQL_parser/init_predicate.cxx", "src/Query/ADQL_parser/ADQL_parser/init_search_condition.cxx"]}
{"id": "C37", "title": "White space between words does not matter", "statement": "Replacing white space between words and marks of a query by other white space (blanks, tabulators, new lines, any positive number of them) changes neither whether the query is accepted nor the structure that is built, and a rejected query stays rejected for the same kind of reason.", "quantifier": "every text and every change of white space outside of quotes", "why_tests_cant": "Infinitely many texts and ways of spacing them.", "anchors": ["src/Query/Query.cxx", "src/Query/ADQL_parser/ADQL_parser/init_query.cxx", "src/Query/ADQL_parser/ADQL_parser/init_predicate.cxx", "src/Query/ADQL_parser/ADQL_parser/init_literals.cxx"]}
{"id": "C38", "title": "Accepted queries and their parts can be put together", "statement": "Two accepted queries joined by UNION, UNION ALL or UNION DISTINCT are accepted and give the components of both in order; an accepted query in parentheses with a name is accepted as a table; a value, a table and conditions taken from accepted queries can be put into a new query, and the new query has exactly these parts.", "quantifier": "all accepted queries, all their parts", "why_tests_cant": "Quantifies over pairs and quadruples of arbitrary accepted queries and arbitrary parts of them.", "anchors": ["src/Query/ADQL_parser/ADQL_parser/init_query.cxx", "src/Query/Query_Specification.hxx", "src/Query/ADQL_parser/ADQL_parser/init_join.cxx", "src/Query/Query_Specification/Select_From_Where_List.hxx"]}
{"id": "C39", "title": "A geometry may be written behind other conditions", "statement": "A query whose WHERE clause names a CONTAINS/INTERSECTS condition behind other conditions joined by AND gets the answer of the query with the geometry condition first: it is accepted, the geometry is recorded as the geometry of the WHERE clause and the other conditions, in their order, as its search condition.", "quantifier": "every query, every position of the geometry in the conjunction", "why_tests_cant": "The conditions around the geometry are arbitrary texts of any length and nesting; the rewriting is a regular expression search whose match depends on all of them.", "anchors": ["src/Query/Query.cxx", "src/Query/ADQL_parser/ADQL_parser/init_query.cxx"]}
{"id": "C40", "title": "Only the uploaded tables named in the text matter", "statement": "The table mapping influences the result only through its entries for the names that stand behind 'TAP_UPLOAD.' in the text handed to the grammar: mappings that agree on these give the same structure or the same error; a text without 'TAP_UPLOAD.' (and without '$') gives the same result with every mapping.", "quantifier": "all pairs of mappings, all texts", "why_tests_cant": "Quantifies over pairs of arbitrary mappings and arbitrary texts.", "anchors": ["src/Query/Query.cxx", "src/Query/ADQL_parser.hxx", "src/Query/ADQL_parser/ADQL_parser/init_identifier.cxx"]}
{"id": "C41", "title": "Accepted queries have matching brackets and closed quotes", "statement": "In the text of an accepted query every round or square bracket outside of quotes has its partner, properly nested, and every single or double quote is closed; a text whose brackets do not match is refused.", "quantifier": "all texts, all table mappings, every nesting depth", "why_tests_cant": "Quantifies over all accepted texts of any length and nesting; the grammar has many independent rules that consume an opening and a closing mark.", "anchors": ["src/Query/ADQL_parser.hxx", "src/Query/Query.cxx"]}
{"id": "C42", "title": "The work of the parser grows moderately with the text", "statement": "The number of grammar rules entered while a query is parsed is bounded by a polynomial in the length of its text; in particular redundant parentheses around a condition do not multiply the work.", "quantifier": "all texts, every depth of parentheses", "why_tests_cant": "A growth rate is a statement about texts of every length; measuring a few texts does not bound it, and the texts that show the growth cannot be run to their end.", "anchors": ["src/Query/ADQL_parser/ADQL_parser/init_search_condition.cxx", "src/Query/ADQL_parser/ADQL_parser/init_predicate.cxx", "src/Query/ADQL_parser/ADQL_parser/init_factor.cxx"]}
{"id": "C43", "title": "No text exhausts the parser's stack", "statement": "The number of grammar rules that are open at the same time (the depth of the recursion) while a query is parsed is bounded, whatever the text.", "quantifier": "all texts, every depth of nesting", "why_tests_cant": "A bound for all texts; a test shows the depth for one text only, and the failing texts end the process.", "anchors": ["src/Query/ADQL_parser/ADQL_parser/init_factor.cxx", "src/Query/ADQL_parser/ADQL_parser/init_value_expression.cxx", "src/Query/Query.cxx: Query::Query 161-175"]}
{"id": "C44", "title": "Writing through the accessors changes the addressed component only", "statement": "Assigning through the reference returned by get_select(i) changes the SELECT of component i of the query and nothing else: the other components, the UNION operators and the other clauses stay, and in the formatted text only the text of this SELECT changes. With an index that is out of range the accessor throws and nothing is changed. A limit (top) set in this way is the limit of the query that is read from the formatted text.", "quantifier": "every accepted query, every index, every new value of the SELECT", "why_tests_cant": "All queries, all indices and all values written.", "anchors": ["src/Query/Query_Specification.hxx: get_select 56-59", "src/Query/Query_Specification/Select_From_Where_List.hxx: get_sfw 58-64, get_select 91-94"]}
{"id": "C45", "title": "A query is empty exactly if it was not read from a text", "statement": "A default constructed query is empty, its component accessors throw for every index and its table lists are empty; a query that was constructed from a text is never empty.", "quantifier": "every accepted text, every index", "why_tests_cant": "All accepted texts and 2^32 indices.", "anchors": ["src/Query.hxx: Query() 21", "src/Query/Query_Specification.hxx: empty 20-23", "src/Query/Query_Specification/Select_From_Where.hxx: empty 16"]}
{"id": "C46", "title": "The search in front of the parser takes polynomial time", "statement": "The number of steps of the regular expression search that every query text undergoes before it is parsed is bounded by a constant times a fixed power of the length of the text; the fifth power suffices, and no smaller power does.", "quantifier": "all texts", "why_tests_cant": "A growth rate speaks about texts of every length; backtracking searches are fast on ordinary texts and slow on special ones that a test does not happen to contain.", "anchors": ["src/Query/Query.cxx: geometry regex 18-22", "src/Query/Query.cxx: Query::Query 161-175"]}
{"id": "C47", "title": "No text exhausts the stack during the search in front of the parser", "statement": "The depth to which the calls of the regular expression search are nested is bounded, whatever the text.", "quantifier": "all texts, however long", "why_tests_cant": "A bound for all texts; a test shows the depth for one text only, and the failing texts end the process.", "anchors": ["src/Query/Query.cxx: geometry regex 18-22", "src/Query/Query.cxx: Query::Query 161-175"]}
{"id": "C48", "title": "Moving the geometry to the front does not blow up the text", "statement": "The text handed to the parser is at most four characters longer than the text given to the constructor.", "quantifier": "all texts", "why_tests_cant": "A bound on the length for all texts, with format characters and parentheses in any position.", "anchors": ["src/Query/Query.cxx: check_and_adjust_parens 36-95", "src/Query/Query.cxx: tweak_input_string 103-134", "src/Query/Query.cxx: Query::Query 161-175"]}
{"id": "C49", "title": "The formatted text of an accepted query is one statement", "statement": "Writing an accepted query to a stream gives, as a database reads it, one statement: outside of quotes and comments there is no semicolon and no other foreign character, and no quote or comment is left open at the end.", "quantifier": "all accepted texts, all table mappings with harmless values, all number formats that write numbers", "why_tests_cant": "The text combines pieces of the input with fixed pieces; whether some combination of them forms a comment or a quote has to be shown for all queries.", "anchors": ["src/Query/Query_Specification.hxx: operator<<", "src/Query/Query_Specification/Value_Expression_Non_Bool_Term.hxx: operator<<", "src/Query/Query_Specification/Factor.hxx: operator<<", "src/Query/Query_Specification/Binary_Arithmetic_Expression.hxx: operator<<"]}
{"id": "C50", "title": "The formatted text is proportional to the text that was given", "statement": "There is a factor, depending only on the longest mapped table name and the longest number the stream writes, such that the text an accepted query writes to a stream is at most that factor times as long as the text given to the constructor.", "quantifier": "all accepted texts, all table mappings, all number formats of bounded length", "why_tests_cant": "A bound on the length of the output for all queries of any size and nesting.", "anchors": ["src/Query/Query_Specification.hxx: operator<< 75-94", "src/Query/Query_Specification: the operator<< of all parts", "src/Query/Query.cxx: tweak_input_string 103-134"]}
{"id": "C51", "title": "A SELECT statement can be rebuilt from what the accessors return", "statement": "The columns of simplified_columns, the tables of get_table_lists_by_sfw and the condition of get_where of any component, written as SELECT columns FROM tables WHERE condition, form a text that is accepted; the query read from it has the same columns, tables and condition and is written as the same text.", "quantifier": "all accepted queries and all their components", "why_tests_cant": "Select lists, tables and conditions of any shape and nesting.", "anchors": ["src/Query/simplified_columns.cxx: 4-38", "src/Query/Query_Specification/Select_From_Where_List.hxx: get_where 81, get_table_lists_by_sfw 115", "src/Query/Query.cxx: Query constructor"]}
{"id": "C52", "title": "No part of an accepted query reports itself as empty()", "statement": "empty() of every part of an accepted query, at any depth, is false, except for a WHERE clause that was not written, provided that no uploaded table is mapped to the empty name.", "quantifier": "all accepted queries, all table mappings without empty names, all parts at any depth", "why_tests_cant": "The parts of all queries of any nesting; the printing code relies on empty() to decide what to write.", "anchors": ["src/Query/empty_variant.hxx", "src/Query/Query_Specification: the empty() members", "src/Query/Query_Specification/*/empty.cxx"]}
{"id": "C53", "title": "Coordinates survive to_string", "statement": "A finite double written by ADQL::to_string, which sets 17 digits, and read again is the same double, if the stream and the number parser round correctly; the values of all coordinates and sizes in the geometries of an accepted query are the same in the query that is read from its formatted text.", "quantifier": "all finite doubles (normal, subnormal, zero, either sign), all accepted queries", "why_tests_cant": "There are 2^64 doubles and queries of any size; the neighbours of powers of two and the subnormals are the hard cases.", "anchors": ["src/to_string.hxx: 8-13", "src/Query/Query_Specification/Column_or_Simple_Arithmetic_Expression.hxx: 24-60"]}
{"id": "C54", "title": "Accepted queries consist of ordinary characters outside of quotes", "statement": "Outside of single and double quotes the text of an accepted query contains nothing but ASCII letters, digits, underscores, white space and the marks ( ) [ ] , . * / + - | = ! < > : ; in particular a text with a semicolon, a control character or a byte of a multi-byte character outside of quotes is refused, whatever stands around it.", "quantifier": "for all input texts, all table mappings, all positions of the byte", "why_tests_cant": "There are infinitely many texts in which such a byte may stand; a test tries a few positions only.", "anchors": ["src/Query/ADQL_parser.hxx", "src/Query/Query.cxx"]}
{"id": "C55", "title": "The tree of an accepted query is not larger than its text allows", "statement": "The number of parts in the tree of an accepted query (expressions, factors, primaries, predicates, table references, subqueries, column lists and all other parts at all depths) is at most a constant times the number of characters of the text given to the constructor: no short text can produce a huge tree.", "quantifier": "all accepted texts, all table mappings", "why_tests_cant": "A bound on the memory of the tree for all queries of any size and nesting; a test can only measure a few of them.", "anchors": ["src/Query/ADQL_parser.hxx", "src/Query/Query_Specification.hxx", "src/Query/Query.cxx: tweak_input_string 103-134"]}
{"id": "C56", "title": "Flat queries have flat trees", "statement": "How deeply the parts of an accepted query are nested in each other (and hence how much stack operator<<, empty() and the destructor need) is bounded by a number as long as no bracket is written; it grows only with the nesting of brackets, not with the length of the text.", "quantifier": "all accepted texts, all table mappings, all chains of parts inside of parts", "why_tests_cant": "A bound for all queries of any length; a test that overflows the stack needs a text of a particular shape and length.", "anchors": ["src/Query/Query_Specification/Search_Condition/Boolean_Term.hxx: Boolean_Term 9-14, operator<< 17-20", "src/Query/ADQL_parser.hxx", "src/Query/Query.cxx"]}
{"id": "C57", "title": "A rewritten text is not rewritten again", "statement": "The text that the constructor makes out of a query with a geometry behind other conditions, with the geometry moved to the front, can itself be given to the constructor: it is left as it is, and it is accepted or refused like the original and gives the same query.", "quantifier": "all texts, all mappings of uploaded tables", "why_tests_cant": "The regular expression is applied to every text; whether the second application finds another match depends on every word in the text, including names that merely contain CONTAINS or INTERSECTS.", "anchors": ["src/Query/Query.cxx: tweak_input_string 113-134"]}
{"id": "C58", "title": "A geometry stays in the SELECT in which it was written", "statement": "In an accepted query with several SELECTs (UNION) or clauses, a condition on geometries belongs to the component in whose WHERE clause it was written, wherever in this clause it stands.", "quantifier": "every accepted text, every mapping of uploaded tables", "why_tests_cant": "The rewriting in front of the grammar searches the whole text for WHERE and for a geometry; which WHERE it takes depends on everything in front of the geometry.", "anchors": ["src/Query/Query.cxx: tweak_input_string 113-134", "src/Query/Query.cxx: search_condition_on_left_of_geometry_regex 19-21"]}
