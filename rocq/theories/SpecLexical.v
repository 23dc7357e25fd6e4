(** Specification of the lexical level: words, reserved words, literals.  Nothing here refers to
    the parser. *)
From Verif Require Import Chars.

(** ** Reserved words: the two lists in alphabetical order (the words of
    init_reserved_words.cxx; SQL-92 and ADQL 2.0). *)
Definition adql_words : list string := [
    "ABS"; "ACOS"; "AREA"; "ASIN"; "ATAN"; "ATAN2"; "BOX"; "CEILING"; "CENTROID"; "CIRCLE";
    "CONTAINS"; "COORD1"; "COORD2"; "COORDSYS"; "COS"; "DEGREES"; "DISTANCE"; "EXP"; "FLOOR";
    "INTERSECTS"; "LOG"; "LOG10"; "MOD"; "PI"; "POINT"; "POLYGON"; "POWER"; "RADIANS"; "RAND";
    "REGION"; "ROUND"; "SIN"; "SQRT"; "TAN"; "TAP_UPLOAD"; "TOP"; "TRUNCATE"
]%string.
Definition sql_words : list string := [
    "ABSOLUTE"; "ACTION"; "ADD"; "ALL"; "ALLOCATE"; "ALTER"; "AND"; "ANY"; "ARE"; "AS"; "ASC";
    "ASSERTION"; "AT"; "AUTHORIZATION"; "AVG"; "BEGIN"; "BETWEEN"; "BIT"; "BIT_LENGTH"; "BOTH";
    "BY"; "CASCADE"; "CASCADED"; "CASE"; "CAST"; "CATALOG"; "CHAR"; "CHARACTER";
    "CHARACTER_LENGTH"; "CHAR_LENGTH"; "CHECK"; "CLOSE"; "COALESCE"; "COLLATE"; "COLLATION";
    "COLUMN"; "COMMIT"; "CONNECT"; "CONNECTION"; "CONSTRAINT"; "CONSTRAINTS"; "CONTINUE";
    "CONVERT"; "CORRESPONDING"; "COUNT"; "CREATE"; "CROSS"; "CURRENT"; "CURRENT_DATE";
    "CURRENT_TIME"; "CURRENT_TIMESTAMP"; "CURRENT_USER"; "CURSOR"; "DATE"; "DAY"; "DEALLOCATE";
    "DECIMAL"; "DECLARE"; "DEFAULT"; "DEFERRABLE"; "DEFERRED"; "DELETE"; "DESC"; "DESCRIBE";
    "DESCRIPTOR"; "DIAGNOSTICS"; "DISCONNECT"; "DISTINCT"; "DOMAIN"; "DOUBLE"; "DROP"; "ELSE";
    "END"; "END-EXEC"; "ESCAPE"; "EXCEPT"; "EXCEPTION"; "EXEC"; "EXECUTE"; "EXISTS"; "EXTERNAL";
    "EXTRACT"; "FALSE"; "FETCH"; "FIRST"; "FLOAT"; "FOR"; "FOREIGN"; "FOUND"; "FROM"; "FULL";
    "GET"; "GLOBAL"; "GO"; "GOTO"; "GRANT"; "GROUP"; "HAVING"; "HOUR"; "IDENTITY"; "IMMEDIATE";
    "IN"; "INDICATOR"; "INITIALLY"; "INNER"; "INPUT"; "INSENSITIVE"; "INSERT"; "INT"; "INTEGER";
    "INTERSECT"; "INTERVAL"; "INTO"; "IS"; "ISOLATION"; "JOIN"; "KEY"; "LANGUAGE"; "LAST";
    "LEADING"; "LEFT"; "LEVEL"; "LIKE"; "LOCAL"; "LOWER"; "MATCH"; "MAX"; "MIN"; "MINUTE";
    "MODULE"; "MONTH"; "NAMES"; "NATIONAL"; "NATURAL"; "NCHAR"; "NEXT"; "NO"; "NOT"; "NULL";
    "NULLIF"; "NUMERIC"; "OCTET_LENGTH"; "OF"; "ON"; "ONLY"; "OPEN"; "OPTION"; "OR"; "ORDER";
    "OUTER"; "OUTPUT"; "OVERLAPS"; "PAD"; "PARTIAL"; "POSITION"; "PRECISION"; "PREPARE";
    "PRESERVE"; "PRIMARY"; "PRIOR"; "PRIVILEGES"; "PROCEDURE"; "PUBLIC"; "READ"; "REAL";
    "REFERENCES"; "RELATIVE"; "RESTRICT"; "REVOKE"; "RIGHT"; "ROLLBACK"; "ROWS"; "SCHEMA";
    "SCROLL"; "SECOND"; "SECTION"; "SELECT"; "SESSION"; "SESSION_USER"; "SET"; "SIZE";
    "SMALLINT"; "SOME"; "SPACE"; "SQL"; "SQLCODE"; "SQLERROR"; "SQLSTATE"; "SUBSTRING"; "SUM";
    "SYSTEM_USER"; "TABLE"; "TEMPORARY"; "THEN"; "TIME"; "TIMESTAMP"; "TIMEZONE_HOUR";
    "TIMEZONE_MINUTE"; "TO"; "TRAILING"; "TRANSACTION"; "TRANSLATE"; "TRANSLATION"; "TRIM";
    "TRUE"; "UNION"; "UNIQUE"; "UNKNOWN"; "UPDATE"; "UPPER"; "USAGE"; "USER"; "USING"; "VALUE";
    "VALUES"; "VARCHAR"; "VARYING"; "VIEW"; "WHEN"; "WHENEVER"; "WHERE"; "WITH"; "WORK";
    "WRITE"; "YEAR"; "ZONE"
]%string.
(** [w] is a reserved word in some mixture of upper and lower case. *)
Definition reserved (w : text) : Prop := In (upper w) (map L (sql_words ++ adql_words)).

(** ** Words *)
Definition letter (c : ascii) : Prop :=
  (65 <= N_of_ascii c <= 90 \/ 97 <= N_of_ascii c <= 122)%N.
Definition digit (c : ascii) : Prop := (48 <= N_of_ascii c <= 57)%N.
Definition word_char (c : ascii) : Prop := letter c \/ digit c \/ c = "_"%char.
(** A regular identifier: a letter followed by letters, digits and underscores. *)
Definition word (w : text) : Prop := exists c w', w = c :: w' /\ letter c /\ Forall word_char w'.
(** The text ends or goes on with a byte for which [P] does not hold. *)
Definition stops (P : ascii -> Prop) (k : text) : Prop := match k with [] => True | c :: _ => ~ P c end.
(** [t] starts with [w] in some mixture of upper and lower case. *)
Definition begins_nc (w t : text) : Prop := exists m r, t = m ++ r /\ upper m = upper w.
Definition begins (w t : text) : Prop := exists r, t = w ++ r.

(** ** Delimited identifiers and string literals: any bytes between two [q], with every inner
    [q] doubled. *)
Inductive doubled (q : ascii) : text -> Prop :=
| doubled_nil : doubled q []
| doubled_byte c t : c <> q -> doubled q t -> doubled q (c :: t)
| doubled_quote t : doubled q t -> doubled q (q :: q :: t).
Definition dq : ascii := """"%char.
Definition sq : ascii := "'"%char.
Definition delimited (d : text) : Prop := exists b, d = dq :: b ++ [dq] /\ doubled dq b /\ b <> [].
Definition string_literal (s : text) : Prop := exists b, s = sq :: b ++ [sq] /\ doubled sq b.

(** ** Unsigned numbers *)
Definition digits (t : text) : Prop := t <> [] /\ Forall digit t.
Definition mantissa (t : text) : Prop :=
  digits t \/ (exists a b, t = a ++ "."%char :: b /\ digits a /\ digits b) \/
  (exists b, t = "."%char :: b /\ digits b).
Definition exponent (t : text) : Prop :=
  exists e s d, t = e :: s ++ d /\ (e = "e"%char \/ e = "E"%char) /\
    (s = [] \/ s = ["+"%char] \/ s = ["-"%char]) /\ digits d.
Definition number (t : text) : Prop := mantissa t \/ exists a b, t = a ++ b /\ mantissa a /\ exponent b.
(** The value of a digit string. *)
Fixpoint value_from (acc : N) (t : text) : N :=
  match t with [] => acc | c :: t' => value_from (10 * acc + (N_of_ascii c - 48))%N t' end.
Definition decimal (t : text) : N := value_from 0 t.

(** ** Identifiers in front of a text [k] *)
(** The reserved words that are accepted as identifiers all the same (a finding, see C05). *)
Definition shadowed (w : text) : Prop :=
  In (upper w) (map L ["TOP"; "ATAN2"; "ATAN"; "ASIN"; "AREA"; "INTERSECTS"]%string).
(** END followed by -EXEC and more letters (the same finding). *)
Definition end_exec_more (w k : text) : Prop :=
  upper w = L "END" /\ exists m c r, k = m ++ c :: r /\ upper m = L "-EXEC" /\ word_char c.
Definition identifier_before (k v : text) : Prop :=
  (word v /\ stops word_char k /\ (~ reserved v \/ shadowed v \/ end_exec_more v k)) \/
  (delimited v /\ stops (fun c => c = dq) k).

(** What may follow a string literal: after blanks and newlines no quote (adjacent literals are
    one literal) and no comment. *)
Definition no_more_literal (k : text) : Prop :=
  exists b r, k = b ++ r /\ Forall (fun c => c = " "%char \/ N_of_ascii c = 10%N) b /\
    stops (fun c => c = " "%char \/ N_of_ascii c = 10%N \/ c = sq) r /\ ~ begins (L "--") r.
(** What may follow a number. *)
Definition after_number (k : text) : Prop := stops (fun c => word_char c \/ c = "."%char) k.

(** What may follow a complete value: after white space none of the marks that would make the
    value longer. *)
Definition after_value (k : text) : Prop :=
  exists b r, k = b ++ r /\ Forall (fun c => (9 <= N_of_ascii c <= 13 \/ N_of_ascii c = 32)%N) b /\
    stops (fun c => (9 <= N_of_ascii c <= 13 \/ N_of_ascii c = 32)%N) r /\
    forall o, In o (map L ["."; "("; "["; "*"; "/"; "+"; "-"; "||"]%string) -> ~ begins o r.
(** Words that are read as a literal or a function instead of a column (a finding, see C06). *)
Definition read_as_value (w : text) : Prop :=
  begins_nc (L "TRUE") w \/ begins_nc (L "FALSE") w \/ begins_nc (L "CURRENT_TIMESTAMP") w \/ upper w = L "COT".
