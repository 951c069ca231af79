(** GENERATED by tools/gen_functions.py from /repo/src/expression.rs. *)
From Verif Require Import Base.
Local Open Scope string_scope.

(** src/expression.rs:374-398 [parse_time_unit] (20 rows). *)
Definition time_unit_table : list (string * string) := [
  ("MICROSECOND", "Microsecond");
  ("SECOND", "Second");
  ("MINUTE", "Minute");
  ("HOUR", "Hour");
  ("DAY", "Day");
  ("WEEK", "Week");
  ("MONTH", "Month");
  ("QUARTER", "Quarter");
  ("YEAR", "Year");
  ("SECOND_MICROSECOND", "SecondMicrosecond");
  ("MINUTE_MICROSECOND", "MinuteMicrosecond");
  ("MINUTE_SECOND", "MinuteSecond");
  ("HOUR_MICROSECOND", "HourMicrosecond");
  ("HOUR_SECOND", "HourSecond");
  ("HOUR_MINUTE", "HourMinute");
  ("DAY_MICROSECOND", "DayMicrosecond");
  ("DAY_SECOND", "DaySecond");
  ("DAY_MINUTE", "DayMinute");
  ("DAY_HOUR", "DayHour");
  ("YEAR_MONTH", "YearMonth") ].

(** src/expression.rs:678-888, the [match] of [parse_function], keyword rows (199 rows). *)
Definition function_table : list (string * string) := [
  ("ASCII", "Ascii");
  ("BIN", "Bin");
  ("BIT_LENGTH", "BitLength");
  ("CHAR_LENGTH", "CharacterLength");
  ("CHARACTER_LENGTH", "CharacterLength");
  ("CHR", "Chr");
  ("CONCAT", "Concat");
  ("CONCAT_WS", "ConcatWs");
  ("ELT", "Elt");
  ("EXPORT_SET", "ExportSet");
  ("EXTRACTVALUE", "ExtractValue");
  ("FIELD", "Field");
  ("FIND_IN_SET", "FindInSet");
  ("FORMAT", "Format");
  ("FROM_BASE64", "FromBase64");
  ("HEX", "Hex");
  ("INSERT", "Insert");
  ("INSTR", "InStr");
  ("LCASE", "LCase");
  ("LEFT", "Left");
  ("LENGTH", "Length");
  ("LENGTHB", "LengthB");
  ("LOAD_FILE", "LoadFile");
  ("LOCATE", "Locate");
  ("LOWER", "Lower");
  ("LPAD", "LPad");
  ("LTRIM", "LTrim");
  ("MAKE_SET", "MakeSet");
  ("MID", "Mid");
  ("NATURAL_SORT_KEY", "NaturalSortkey");
  ("OCTET_LENGTH", "OctetLength");
  ("ORD", "Ord");
  ("POSITION", "Position");
  ("QUOTE", "Quote");
  ("REPEAT", "Repeat");
  ("REPLACE", "Replace");
  ("REVERSE", "Reverse");
  ("RIGHT", "Right");
  ("RPAD", "RPad");
  ("RTRIM", "RTrim");
  ("SOUNDEX", "SoundEx");
  ("SPACE", "Space");
  ("STRCMP", "StrCmp");
  ("SUBSTR", "SubStr");
  ("SUBSTRING", "SubStr");
  ("SUBSTRING_INDEX", "SubStringIndex");
  ("TO_BASE64", "ToBase64");
  ("TO_CHAR", "ToChar");
  ("UCASE", "UCase");
  ("UNCOMPRESSED_LENGTH", "UncompressedLength");
  ("UNHEX", "UnHex");
  ("UPDATEXML", "UpdateXml");
  ("UPPER", "Upper");
  ("SFORMAT", "SFormat");
  ("EXISTS", "Exists");
  ("MIN", "Min");
  ("MAX", "Max");
  ("SUM", "Sum");
  ("VALUE", "Value");
  ("VALUES", "Value");
  ("LEAD", "Lead");
  ("LAG", "Lag");
  ("STARTS_WITH", "StartsWith");
  ("IFNULL", "IfNull");
  ("NULLIF", "NullIf");
  ("NVL", "IfNull");
  ("NVL2", "NVL2");
  ("IF", "If");
  ("ABS", "Abs");
  ("ACOS", "Acos");
  ("ASIN", "Asin");
  ("ATAN", "Atan");
  ("ATAN2", "Atan2");
  ("CEIL", "Ceil");
  ("CEILING", "Ceil");
  ("CONV", "Conv");
  ("COS", "Cos");
  ("COT", "Cot");
  ("CRC32", "Crc32");
  ("DEGREES", "Degrees");
  ("EXP", "Exp");
  ("FLOOR", "Floor");
  ("GREATEST", "Greatest");
  ("LN", "Ln");
  ("LOG", "Log");
  ("LOG10", "Log10");
  ("LOG2", "Log2");
  ("OCT", "Oct");
  ("PI", "Pi");
  ("POW", "Pow");
  ("POWER", "Pow");
  ("RADIANS", "Radians");
  ("RAND", "Rand");
  ("ROUND", "Round");
  ("SIGN", "Sign");
  ("SIN", "Sin");
  ("SQRT", "Sqrt");
  ("TAN", "Tan");
  ("TRUNCATE", "Truncate");
  ("CRC32C", "Crc32c");
  ("LEAST", "Least");
  ("ADDDATE", "AddDate");
  ("ADDTIME", "AddTime");
  ("CONVERT_TZ", "ConvertTz");
  ("CURDATE", "CurDate");
  ("CURRENT_DATE", "CurDate");
  ("CURRENT_TIME", "CurTime");
  ("CURTIME", "CurTime");
  ("DATE", "Date");
  ("HOUR", "Hour");
  ("DATEDIFF", "DateDiff");
  ("DATE_ADD", "AddDate");
  ("DATE_FORMAT", "DateFormat");
  ("DATE_SUB", "DateSub");
  ("DAY", "DayOfMonth");
  ("DAYOFMONTH", "DayOfMonth");
  ("DAYNAME", "DayName");
  ("DAYOFWEEK", "DayOfWeek");
  ("DAYOFYEAR", "DayOfYear");
  ("FROM_DAYS", "FromDays");
  ("CURRENT_TIMESTAMP", "CurrentTimestamp");
  ("LOCALTIME", "Now");
  ("LOCALTIMESTAMP", "Now");
  ("NOW", "Now");
  ("MAKEDATE", "MakeDate");
  ("MAKETIME", "MakeTime");
  ("MICROSECOND", "MicroSecond");
  ("MINUTE", "Minute");
  ("MONTH", "Month");
  ("MONTHNAME", "MonthName");
  ("PERIOD_ADD", "PeriodAdd");
  ("PERIOD_DIFF", "PeriodDiff");
  ("QUARTER", "Quarter");
  ("SECOND", "Second");
  ("SEC_TO_TIME", "SecToTime");
  ("STR_TO_DATE", "StrToDate");
  ("SUBDATE", "DateSub");
  ("SUBTIME", "SubTime");
  ("TIME", "Time");
  ("LAST_DAY", "LastDay");
  ("TIMEDIFF", "TimeDiff");
  ("TIMESTAMP", "Timestamp");
  ("TIME_FORMAT", "TimeFormat");
  ("TIME_TO_SEC", "TimeToSec");
  ("TO_DAYS", "ToDays");
  ("TO_SECONDS", "ToSeconds");
  ("UNIX_TIMESTAMP", "UnixTimestamp");
  ("UTC_DATE", "UtcDate");
  ("UTC_TIME", "UtcTime");
  ("UTC_TIMESTAMP", "UtcTimeStamp");
  ("WEEK", "Week");
  ("WEEKDAY", "Weekday");
  ("WEEKOFYEAR", "WeekOfYear");
  ("ADD_MONTHS", "AddMonths");
  ("FROM_UNIXTIME", "FromUnixTime");
  ("YEAR", "Year");
  ("YEARWEEK", "YearWeek");
  ("SYSDATE", "SysDate");
  ("JSON_ARRAY", "JsonArray");
  ("JSON_ARRAYAGG", "JsonArrayAgg");
  ("JSON_ARRAY_APPEND", "JsonArrayAppend");
  ("JSON_ARRAY_INSERT", "JsonArrayInsert");
  ("JSON_ARRAY_INTERSECT", "JsonArrayIntersect");
  ("JSON_COMPACT", "JsonCompact");
  ("JSON_CONTAINS", "JsonContains");
  ("JSON_CONTAINS_PATH", "JsonContainsPath");
  ("JSON_DEPTH", "JsonDepth");
  ("JSON_DETAILED", "JsonDetailed");
  ("JSON_EQUALS", "JsonEquals");
  ("JSON_EXISTS", "JsonExists");
  ("JSON_EXTRACT", "JsonExtract");
  ("JSON_INSERT", "JsonInsert");
  ("JSON_KEYS", "JsonKeys");
  ("JSON_LENGTH", "JsonLength");
  ("JSON_LOOSE", "JsonLoose");
  ("JSON_MERGE", "JsonMerge");
  ("JSON_MERGE_PATCH", "JsonMergePath");
  ("JSON_MERGE_PRESERVE", "JsonMergePerserve");
  ("JSON_NORMALIZE", "JsonNormalize");
  ("JSON_OBJECT", "JsonObject");
  ("JSON_OBJECT_FILTER_KEYS", "JsonObjectFilterKeys");
  ("JSON_OBJECT_TO_ARRAY", "JsonObjectToArray");
  ("JSON_OBJECTAGG", "JsonObjectAgg");
  ("JSON_OVERLAPS", "JsonOverlaps");
  ("JSON_PRETTY", "JsonPretty");
  ("JSON_QUERY", "JsonQuery");
  ("JSON_QUOTE", "JsonQuote");
  ("JSON_REMOVE", "JsonRemove");
  ("JSON_REPLACE", "JsonReplace");
  ("JSON_SCHEMA_VALID", "JsonSchemaValid");
  ("JSON_SEARCH", "JsonSearch");
  ("JSON_SET", "JsonSet");
  ("JSON_TABLE", "JsonTable");
  ("JSON_TYPE", "JsonType");
  ("JSON_UNQUOTE", "JsonUnquote");
  ("JSON_VALID", "JsonValid");
  ("JSON_VALUE", "JsonValue");
  ("STRFTIME", "Strftime");
  ("DATETIME", "Datetime") ].

