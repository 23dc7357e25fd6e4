(** The character-level rules: identifiers, reserved words, literals. *)
From Verif Require Export Peg.

Fixpoint alts (l : list se) : se :=
  match l with
  | [] => SChr (fun _ => false)
  | a :: l' => SAlt a (alts l')
  end.

(** no_case["W1"] | no_case["W2"] | ... (no attribute); the final never-matching
    alternative added by [alts] changes nothing. *)
Definition lits_nc (ws : list string) : se := alts (map (fun w => SLit true (L w)) ws).
(** no_case[string("W1")] | no_case[string("W2")] | ... *)
Definition strs_nc (ws : list string) : se := alts (map (fun w => SStr true (L w)) ws).
Definition strs_cs (ws : list string) : se := alts (map (fun w => SStr false (L w)) ws).

(** char_('c') *)
Definition chr (c : ascii) : se := SChr (fun x => Ascii.eqb x c).
(** qi::space under & *)
Definition ahead_space : se := SAnd (SChr is_space).

(** ADQL_reserved_word, init_reserved_words.cxx:26-42, in the order of the source *)
Definition adql_reserved : list string := [
    "TRUNCATE"; "TOP"; "TAP_UPLOAD"; "TAN"; "SQRT"; "SIN"; "ROUND"; "REGION"; "RAND";
    "RADIANS"; "POWER"; "POLYGON"; "POINT"; "PI"; "MOD"; "LOG10"; "LOG"; "INTERSECTS"; "FLOOR";
    "EXP"; "DISTANCE"; "DEGREES"; "COS"; "COORDSYS"; "COORD2"; "COORD1"; "CONTAINS"; "CIRCLE";
    "CENTROID"; "CEILING"; "BOX"; "ATAN2"; "ATAN"; "ASIN"; "AREA"; "ACOS"; "ABS"
]%string.

(** SQL_reserved_word, init_reserved_words.cxx:45-189 (the sub-rules 00..32 flattened,
    in the order in which they are tried) *)
Definition sql_reserved : list string := [
    "ZONE"; "YEAR"; "WRITE"; "WORK"; "WITH"; "WHERE"; "WHENEVER"; "WHEN"; "VIEW"; "VARYING";
    "VARCHAR"; "VALUES"; "VALUE"; "USING"; "USER"; "USAGE"; "UPPER"; "UPDATE"; "UNKNOWN";
    "UNIQUE"; "UNION"; "TRUE"; "TRIM"; "TRANSLATION"; "TRANSLATE"; "TRANSACTION"; "TRAILING";
    "TO"; "TIMEZONE_MINUTE"; "TIMEZONE_HOUR"; "TIMESTAMP"; "TIME"; "THEN"; "TEMPORARY";
    "TABLE"; "SYSTEM_USER"; "SUM"; "SUBSTRING"; "SQLSTATE"; "SQLERROR"; "SQLCODE"; "SQL";
    "SPACE"; "SOME"; "SMALLINT"; "SIZE"; "SET"; "SESSION_USER"; "SESSION"; "SELECT"; "SECTION";
    "SECOND"; "SCROLL"; "SCHEMA"; "ROWS"; "ROLLBACK"; "RIGHT"; "REVOKE"; "RESTRICT";
    "RELATIVE"; "REFERENCES"; "REAL"; "READ"; "PUBLIC"; "PROCEDURE"; "PRIVILEGES"; "PRIOR";
    "PRIMARY"; "PRESERVE"; "PREPARE"; "PRECISION"; "POSITION"; "PARTIAL"; "PAD"; "OVERLAPS";
    "OUTPUT"; "OUTER"; "ORDER"; "OR"; "OPTION"; "OPEN"; "ONLY"; "ON"; "OF"; "OCTET_LENGTH";
    "NUMERIC"; "NULLIF"; "NULL"; "NOT"; "NO"; "NEXT"; "NCHAR"; "NATURAL"; "NATIONAL"; "NAMES";
    "MONTH"; "MODULE"; "MINUTE"; "MIN"; "MAX"; "MATCH"; "LOWER"; "LOCAL"; "LIKE"; "LEVEL";
    "LEFT"; "LEADING"; "LAST"; "LANGUAGE"; "KEY"; "JOIN"; "ISOLATION"; "IS"; "INTO";
    "INTERVAL"; "INTERSECT"; "INTEGER"; "INT"; "INSERT"; "INSENSITIVE"; "INPUT"; "INNER";
    "INITIALLY"; "INDICATOR"; "IN"; "IMMEDIATE"; "IDENTITY"; "HOUR"; "HAVING"; "GROUP";
    "GRANT"; "GOTO"; "GO"; "GLOBAL"; "GET"; "FULL"; "FROM"; "FOUND"; "FOREIGN"; "FOR"; "FLOAT";
    "FIRST"; "FETCH"; "FALSE"; "EXTRACT"; "EXTERNAL"; "EXISTS"; "EXECUTE"; "EXEC"; "EXCEPTION";
    "EXCEPT"; "ESCAPE"; "END-EXEC"; "END"; "ELSE"; "DROP"; "DOUBLE"; "DOMAIN"; "DISTINCT";
    "DISCONNECT"; "DIAGNOSTICS"; "DESCRIPTOR"; "DESCRIBE"; "DESC"; "DELETE"; "DEFERRED";
    "DEFERRABLE"; "DEFAULT"; "DECLARE"; "DECIMAL"; "DEALLOCATE"; "DAY"; "DATE"; "CURSOR";
    "CURRENT_USER"; "CURRENT_TIMESTAMP"; "CURRENT_TIME"; "CURRENT_DATE"; "CURRENT"; "CROSS";
    "CREATE"; "COUNT"; "CORRESPONDING"; "CONVERT"; "CONTINUE"; "CONSTRAINTS"; "CONSTRAINT";
    "CONNECTION"; "CONNECT"; "COMMIT"; "COLUMN"; "COLLATION"; "COLLATE"; "COALESCE"; "CLOSE";
    "CHECK"; "CHAR_LENGTH"; "CHARACTER_LENGTH"; "CHARACTER"; "CHAR"; "CATALOG"; "CAST"; "CASE";
    "CASCADED"; "CASCADE"; "BY"; "BOTH"; "BIT_LENGTH"; "BIT"; "BETWEEN"; "BEGIN"; "AVG";
    "AUTHORIZATION"; "AT"; "ASSERTION"; "ASC"; "AS"; "ARE"; "ANY"; "AND"; "ALTER"; "ALLOCATE";
    "ALL"; "ADD"; "ACTION"; "ABSOLUTE"
]%string.

(** keyword, init_identifier.cxx:25-26 *)
Definition s_keyword : se :=
  SSeq (SAlt (lits_nc sql_reserved) (lits_nc adql_reserved)) (SAnd (SNot (SChr is_idchar))).

(** all_identifiers, regular_identifier, init_identifier.cxx:35-36 *)
Definition s_all_identifiers : se := SSeq (SChr is_letter) (SStar (SChr is_idchar)).
Definition s_regular_identifier : se := SDiff s_all_identifiers s_keyword.

(** nonidentifier_character, init_identifier.cxx:33, used under & only *)
Definition ahead_nonid : se := SAnd (SChr (fun c => negb (is_idchar c))).

(** possibly_qualified_identifier, init_identifier.cxx:38-40 *)
Definition s_pqi : se :=
  SSeq (SChr is_letter) (SStar (SChr (fun c => is_idchar c || Ascii.eqb c "."))).

Definition dquote : ascii := """"%char.

(** delimited_identifier and its parts, init_identifier.cxx:42-46 *)
Definition s_delimited_identifier_part : se :=
  SAlt (SChr (fun c => negb (Ascii.eqb c dquote))) (SStr false [dquote; dquote]).
Definition s_delimited_identifier : se :=
  SSeq (chr dquote) (SSeq (SPlus s_delimited_identifier_part) (chr dquote)).

(** identifier, init_identifier.cxx:48 *)
Definition s_identifier : se := SAlt s_regular_identifier s_delimited_identifier.

(** unsigned_integer ... unsigned_numeric_literal, init_literals.cxx:25-36 *)
Definition s_unsigned_integer : se := SPlus (SChr is_digit).
Definition s_exact_numeric : se :=
  SAlt (SSeq s_unsigned_integer (SOpt (SSeq (chr ".") s_unsigned_integer)))
       (SSeq (chr ".") s_unsigned_integer).
Definition s_sign : se := SAlt (chr "+") (chr "-").
Definition s_signed_integer : se := SSeq (SOpt s_sign) s_unsigned_integer.
Definition s_approximate_numeric : se :=
  SHold (SSeq s_exact_numeric
        (SSeq (SChr (fun c => Ascii.eqb c "E" || Ascii.eqb c "e")) s_signed_integer)).
Definition s_unsigned_numeric : se := SAlt s_approximate_numeric s_exact_numeric.

Definition quote : ascii := "'"%char.
Definition newline : ascii := ascii_of_N 10.

(** character_representation, separator, character_string_literal, init_literals.cxx:38-55 *)
Definition s_character_representation : se :=
  SAlt (SChr (fun c => negb (Ascii.eqb c quote))) (SStr false [quote; quote]).
Definition s_comment : se :=
  SSeq (SSeq (chr "-") (SPlus (chr "-")))
  (SSeq (SStar (SChr (fun c => negb (Ascii.eqb c newline)))) (chr newline)).
Definition s_separator : se := SAlt s_comment (SAlt (chr " ") (chr newline)).
Definition s_character_string : se :=
  SSeq (chr quote) (SSeq (SStar s_character_representation) (SSeq (chr quote)
  (SStar (SHold (SSeq (SPlus s_separator) (SSeq (chr quote)
                (SSeq (SStar s_character_representation) (chr quote)))))))).

(** boolean_literal, general_literal, unsigned_literal, unsigned_value_specification,
    init_literals.cxx:57-67 *)
Definition s_boolean_literal : se := strs_nc ["True"; "False"]%string.
Definition s_unsigned_literal : se :=
  SAlt s_unsigned_numeric (SAlt s_character_string s_boolean_literal).

Section Mapping.
(** the table_mapping argument of ADQL_parser (std::map::find) *)
Variable m : text -> option text.

(** tap_upload_identifier, tap_upload, init_column_reference.cxx:55-60 *)
Definition s_tap_upload : se := SExp (SLit false (L "TAP_UPLOAD.")) (SMap m s_identifier).

(** table_name, init_column_reference.cxx:67-70 (catalog_name, unqualified_schema_name are
    [identifier], init_column_reference.cxx:40,73) *)
Definition s_table_name : se :=
  SAlt s_tap_upload
  (SAlt (SHold (SSeq s_identifier (SSeq (chr ".") (SSeq s_identifier (SSeq (chr ".") s_identifier)))))
  (SAlt (SHold (SSeq s_identifier (SSeq (chr ".") s_identifier)))
        s_identifier)).

(** qualifier_star, init_columns.cxx:34 (qualifier is table_name, init_column_reference.cxx:45) *)
Definition s_qualifier_star : se := SSeq s_table_name (SStr false (L ".*")).
End Mapping.

(** set_function_type, set_quantifier, null_literal, null_cast: init_factor.cxx:25-48,115-117 *)
Definition s_set_function_type : se := strs_nc ["AVG"; "MAX"; "MIN"; "SUM"; "COUNT"]%string.
Definition s_set_quantifier : se :=
  SHold (SSeq (strs_nc ["DISTINCT"; "ALL"]%string) ahead_space).
Definition s_null_literal : se := strs_nc ["NULL"]%string.
Definition s_null_cast : se := strs_nc ["NULL::char"; "NULL::int"; "NULL::float"]%string.

(** user_defined_function_name, sql_no_arg_function, cast_as: init_factor.cxx:138-168 *)
Definition s_udf_name : se :=
  SAlt s_regular_identifier
       (strs_nc ["RIGHT"; "LEFT"; "UPPER"; "LOWER"; "DISTINCT"; "TRIM"]%string).
Definition s_no_arg_function : se := strs_nc ["CURRENT_TIMESTAMP"]%string.
Definition s_cast_as : se :=
  strs_nc ["NUMERIC"; "FLOAT4"; "INTEGER"; "BIGINT"; "FLOAT8"; "VARCHAR2"; "VARCHAR"; "CHAR"; "TEXT"]%string.

(** init_math.cxx:26-51 *)
Definition s_math0 : se := strs_nc ["PI"; "RAND"]%string.
Definition s_math1 : se :=
  strs_nc ["ABS"; "CEILING"; "DEGREES"; "EXP"; "FLOOR"; "LOG10"; "LOG"; "RADIANS"; "SQRT"; "RAND";
           "ROUND"; "TRUNCATE"]%string.
Definition s_math2 : se := strs_nc ["MOD"; "POWER"; "ROUND"; "TRUNCATE"]%string.

(** init_trig.cxx:25-36: the hold[lexeme[names >> &nonidentifier_character]] parts *)
Definition s_trig1 : se :=
  SHold (SSeq (strs_nc ["ACOS"; "ASIN"; "ATAN"; "COS"; "COT"; "SIN"; "TAN"]%string) ahead_nonid).
Definition s_trig2 : se := SHold (SSeq (strs_nc ["ATAN2"]%string) ahead_nonid).

(** init_non_predicate_geometry_function.cxx:8-19 *)
Definition s_geo1 : se := SHold (SSeq (strs_nc ["COORD1"; "COORD2"]%string) ahead_nonid).
Definition s_geo2 : se := SHold (SSeq (strs_nc ["DISTANCE"]%string) ahead_nonid).

(** binary_operators, init_value_expression.cxx:12-13; comparison operators,
    init_predicate.cxx:51-53; arithmetic_operator, init_geometry.cxx:27; char_flag, :82 *)
Definition s_binary_operators : se := strs_cs ["*"; "/"; "+"; "-"; "||"]%string.
Definition s_comparison : se := strs_cs ["="; "!="; "<>"; "<="; ">="; "<"; ">"]%string.
Definition s_arithmetic_operator : se :=
  SAlt (chr "+") (SAlt (chr "-") (SAlt (chr "*") (chr "/"))).
Definition s_char_flag : se := SAlt (chr "0") (chr "1").

(** ordering_specification, init_query.cxx:66-67 *)
Definition s_ordering : se := strs_nc ["ASC"; "DESC"]%string.

(** The recurring forms lexeme[no_case["KW"] >> &space], lexeme[no_case["KW"] > &space],
    and the same with string(...) *)
Definition kw_soft (w : string) : se := SSeq (SLit true (L w)) ahead_space.
Definition kw_hard (w : string) : se := SExp (SLit true (L w)) ahead_space.
Definition kws_soft (ws : list string) : se := SSeq (strs_nc ws) ahead_space.
Definition kws_hard (w : string) : se := SExp (SStr true (L w)) ahead_space.

(** union_op, init_query.cxx:101-104 *)
Definition s_union : se := kws_soft ["UNION DISTINCT"; "UNION ALL"; "UNION"]%string.
