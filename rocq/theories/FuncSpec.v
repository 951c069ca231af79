(** Specification: the words that name the functions and the units of time, listed by the
    constructors of the enums [Function] and [TimeUnit] (src/expression.rs) that they stand for.
    The lists are written out here a second time, so that a row dropped from the tables of the
    model, or a word added to them, breaks the theorems that are stated with these lists. *)
From Coq Require Import String List.
Import ListNotations.
Local Open Scope string_scope.

(** Functions, written with parentheses. *)
Definition functions_by_name : list (string * list string) := [
  ("Abs", ["ABS"]); ("Acos", ["ACOS"]); ("AddDate", ["ADDDATE"; "DATE_ADD"]); ("AddMonths", ["ADD_MONTHS"]); ("AddTime", ["ADDTIME"]); ("Ascii", ["ASCII"]);
  ("Asin", ["ASIN"]); ("Atan", ["ATAN"]); ("Atan2", ["ATAN2"]); ("Bin", ["BIN"]); ("BitLength", ["BIT_LENGTH"]); ("Ceil", ["CEIL"; "CEILING"]);
  ("CharacterLength", ["CHAR_LENGTH"; "CHARACTER_LENGTH"]); ("Chr", ["CHR"]); ("Concat", ["CONCAT"]); ("ConcatWs", ["CONCAT_WS"]); ("Conv", ["CONV"]);
  ("ConvertTz", ["CONVERT_TZ"]); ("Cos", ["COS"]); ("Cot", ["COT"]); ("Crc32", ["CRC32"]); ("Crc32c", ["CRC32C"]); ("CurDate", ["CURDATE"; "CURRENT_DATE"]);
  ("CurTime", ["CURRENT_TIME"; "CURTIME"]); ("CurrentTimestamp", ["CURRENT_TIMESTAMP"]); ("Date", ["DATE"]); ("DateDiff", ["DATEDIFF"]); ("DateFormat", ["DATE_FORMAT"]);
  ("DateSub", ["DATE_SUB"; "SUBDATE"]); ("Datetime", ["DATETIME"]); ("DayName", ["DAYNAME"]); ("DayOfMonth", ["DAY"; "DAYOFMONTH"]); ("DayOfWeek", ["DAYOFWEEK"]);
  ("DayOfYear", ["DAYOFYEAR"]); ("Degrees", ["DEGREES"]); ("Elt", ["ELT"]); ("Exists", ["EXISTS"]); ("Exp", ["EXP"]); ("ExportSet", ["EXPORT_SET"]);
  ("ExtractValue", ["EXTRACTVALUE"]); ("Field", ["FIELD"]); ("FindInSet", ["FIND_IN_SET"]); ("Floor", ["FLOOR"]); ("Format", ["FORMAT"]); ("FromBase64", ["FROM_BASE64"]);
  ("FromDays", ["FROM_DAYS"]); ("FromUnixTime", ["FROM_UNIXTIME"]); ("Greatest", ["GREATEST"]); ("Hex", ["HEX"]); ("Hour", ["HOUR"]); ("If", ["IF"]);
  ("IfNull", ["IFNULL"; "NVL"]); ("InStr", ["INSTR"]); ("Insert", ["INSERT"]); ("JsonArray", ["JSON_ARRAY"]); ("JsonArrayAgg", ["JSON_ARRAYAGG"]);
  ("JsonArrayAppend", ["JSON_ARRAY_APPEND"]); ("JsonArrayInsert", ["JSON_ARRAY_INSERT"]); ("JsonArrayIntersect", ["JSON_ARRAY_INTERSECT"]);
  ("JsonCompact", ["JSON_COMPACT"]); ("JsonContains", ["JSON_CONTAINS"]); ("JsonContainsPath", ["JSON_CONTAINS_PATH"]); ("JsonDepth", ["JSON_DEPTH"]);
  ("JsonDetailed", ["JSON_DETAILED"]); ("JsonEquals", ["JSON_EQUALS"]); ("JsonExists", ["JSON_EXISTS"]); ("JsonExtract", ["JSON_EXTRACT"]);
  ("JsonInsert", ["JSON_INSERT"]); ("JsonKeys", ["JSON_KEYS"]); ("JsonLength", ["JSON_LENGTH"]); ("JsonLoose", ["JSON_LOOSE"]); ("JsonMerge", ["JSON_MERGE"]);
  ("JsonMergePath", ["JSON_MERGE_PATCH"]); ("JsonMergePerserve", ["JSON_MERGE_PRESERVE"]); ("JsonNormalize", ["JSON_NORMALIZE"]); ("JsonObject", ["JSON_OBJECT"]);
  ("JsonObjectAgg", ["JSON_OBJECTAGG"]); ("JsonObjectFilterKeys", ["JSON_OBJECT_FILTER_KEYS"]); ("JsonObjectToArray", ["JSON_OBJECT_TO_ARRAY"]);
  ("JsonOverlaps", ["JSON_OVERLAPS"]); ("JsonPretty", ["JSON_PRETTY"]); ("JsonQuery", ["JSON_QUERY"]); ("JsonQuote", ["JSON_QUOTE"]); ("JsonRemove", ["JSON_REMOVE"]);
  ("JsonReplace", ["JSON_REPLACE"]); ("JsonSchemaValid", ["JSON_SCHEMA_VALID"]); ("JsonSearch", ["JSON_SEARCH"]); ("JsonSet", ["JSON_SET"]);
  ("JsonTable", ["JSON_TABLE"]); ("JsonType", ["JSON_TYPE"]); ("JsonUnquote", ["JSON_UNQUOTE"]); ("JsonValid", ["JSON_VALID"]); ("JsonValue", ["JSON_VALUE"]);
  ("LCase", ["LCASE"]); ("LPad", ["LPAD"]); ("LTrim", ["LTRIM"]); ("Lag", ["LAG"]); ("LastDay", ["LAST_DAY"]); ("Lead", ["LEAD"]); ("Least", ["LEAST"]);
  ("Left", ["LEFT"]); ("Length", ["LENGTH"]); ("LengthB", ["LENGTHB"]); ("Ln", ["LN"]); ("LoadFile", ["LOAD_FILE"]); ("Locate", ["LOCATE"]); ("Log", ["LOG"]);
  ("Log10", ["LOG10"]); ("Log2", ["LOG2"]); ("Lower", ["LOWER"]); ("MakeDate", ["MAKEDATE"]); ("MakeSet", ["MAKE_SET"]); ("MakeTime", ["MAKETIME"]); ("Max", ["MAX"]);
  ("MicroSecond", ["MICROSECOND"]); ("Mid", ["MID"]); ("Min", ["MIN"]); ("Minute", ["MINUTE"]); ("Month", ["MONTH"]); ("MonthName", ["MONTHNAME"]); ("NVL2", ["NVL2"]);
  ("NaturalSortkey", ["NATURAL_SORT_KEY"]); ("Now", ["LOCALTIME"; "LOCALTIMESTAMP"; "NOW"]); ("NullIf", ["NULLIF"]); ("Oct", ["OCT"]); ("OctetLength", ["OCTET_LENGTH"]);
  ("Ord", ["ORD"]); ("PeriodAdd", ["PERIOD_ADD"]); ("PeriodDiff", ["PERIOD_DIFF"]); ("Pi", ["PI"]); ("Position", ["POSITION"]); ("Pow", ["POW"; "POWER"]);
  ("Quarter", ["QUARTER"]); ("Quote", ["QUOTE"]); ("RPad", ["RPAD"]); ("RTrim", ["RTRIM"]); ("Radians", ["RADIANS"]); ("Rand", ["RAND"]); ("Repeat", ["REPEAT"]);
  ("Replace", ["REPLACE"]); ("Reverse", ["REVERSE"]); ("Right", ["RIGHT"]); ("Round", ["ROUND"]); ("SFormat", ["SFORMAT"]); ("SecToTime", ["SEC_TO_TIME"]);
  ("Second", ["SECOND"]); ("Sign", ["SIGN"]); ("Sin", ["SIN"]); ("SoundEx", ["SOUNDEX"]); ("Space", ["SPACE"]); ("Sqrt", ["SQRT"]); ("StartsWith", ["STARTS_WITH"]);
  ("StrCmp", ["STRCMP"]); ("StrToDate", ["STR_TO_DATE"]); ("Strftime", ["STRFTIME"]); ("SubStr", ["SUBSTR"; "SUBSTRING"]); ("SubStringIndex", ["SUBSTRING_INDEX"]);
  ("SubTime", ["SUBTIME"]); ("Sum", ["SUM"]); ("SysDate", ["SYSDATE"]); ("Tan", ["TAN"]); ("Time", ["TIME"]); ("TimeDiff", ["TIMEDIFF"]); ("TimeFormat", ["TIME_FORMAT"]);
  ("TimeToSec", ["TIME_TO_SEC"]); ("Timestamp", ["TIMESTAMP"]); ("ToBase64", ["TO_BASE64"]); ("ToChar", ["TO_CHAR"]); ("ToDays", ["TO_DAYS"]);
  ("ToSeconds", ["TO_SECONDS"]); ("Truncate", ["TRUNCATE"]); ("UCase", ["UCASE"]); ("UnHex", ["UNHEX"]); ("UncompressedLength", ["UNCOMPRESSED_LENGTH"]);
  ("UnixTimestamp", ["UNIX_TIMESTAMP"]); ("UpdateXml", ["UPDATEXML"]); ("Upper", ["UPPER"]); ("UtcDate", ["UTC_DATE"]); ("UtcTime", ["UTC_TIME"]);
  ("UtcTimeStamp", ["UTC_TIMESTAMP"]); ("Value", ["VALUE"; "VALUES"]); ("Week", ["WEEK"]); ("WeekOfYear", ["WEEKOFYEAR"]); ("Weekday", ["WEEKDAY"]); ("Year", ["YEAR"]);
  ("YearWeek", ["YEARWEEK"]) ].

(** Functions that are written without parentheses. *)
Definition functions_without_parentheses : list (string * list string) := [
  ("CurDate", ["CURRENT_DATE"]); ("CurTime", ["CURRENT_TIME"]); ("CurrentTimestamp", ["CURRENT_TIMESTAMP"]); ("Now", ["LOCALTIME"; "LOCALTIMESTAMP"]);
  ("UtcDate", ["UTC_DATE"]); ("UtcTime", ["UTC_TIME"]); ("UtcTimeStamp", ["UTC_TIMESTAMP"]) ].

(** Units of time. *)
Definition units_by_name : list (string * list string) := [
  ("Day", ["DAY"]); ("DayHour", ["DAY_HOUR"]); ("DayMicrosecond", ["DAY_MICROSECOND"]); ("DayMinute", ["DAY_MINUTE"]); ("DaySecond", ["DAY_SECOND"]); ("Hour", ["HOUR"]);
  ("HourMicrosecond", ["HOUR_MICROSECOND"]); ("HourMinute", ["HOUR_MINUTE"]); ("HourSecond", ["HOUR_SECOND"]); ("Microsecond", ["MICROSECOND"]); ("Minute", ["MINUTE"]);
  ("MinuteMicrosecond", ["MINUTE_MICROSECOND"]); ("MinuteSecond", ["MINUTE_SECOND"]); ("Month", ["MONTH"]); ("Quarter", ["QUARTER"]); ("Second", ["SECOND"]);
  ("SecondMicrosecond", ["SECOND_MICROSECOND"]); ("Week", ["WEEK"]); ("Year", ["YEAR"]); ("YearMonth", ["YEAR_MONTH"]) ].

(** The word [w] stands for the constructor [c]. *)
Definition stands_for (l : list (string * list string)) (w c : string) : Prop :=
  exists ws, In (c, ws) l /\ In w ws.
(** The word [w] is in the list. *)
Definition is_listed (l : list (string * list string)) (w : string) : bool :=
  existsb (fun x => existsb (String.eqb w) (snd x)) l.
