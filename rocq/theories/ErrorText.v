(** Model of the [Display] implementations of the error types.  [custom] is the message
    given to [de::Error::custom] or [ser::Error::custom]: kept with one of the features
    std and alloc ([Some]), dropped without ([None]).

    Simplified: the text is returned, where the code passes it to a formatter with one
    [write_str], or with [write!] for a kept message. *)
From Coq Require Import String Ascii.
From Verif Require Import Prelude Writer MpSer MpDe JsonSer JsonDe.

(** A string literal of the source as bytes. *)
Fixpoint text (s : string) : bytes :=
  match s with
  | EmptyString => []
  | String c s => Z.of_N (N_of_ascii c) :: text s
  end.

Local Open Scope string_scope.

(** [impl Display for SerError] (src/lib.rs:36-42). *)
Definition ser_error_text (e : ser_error) : bytes :=
  match e with
  | BufferFull => text "buffer is full"
  end.

(** ser-write-msgpack/src/de.rs:111-149. *)
Definition mp_de_text (custom : option bytes) (e : mp_de_error) : bytes :=
  match e with
  | UnexpectedEof => text "Unexpected end of MessagePack input"
  | ReservedCode => text "Reserved MessagePack code in input"
  | UnsupportedExt => text "Unsupported MessagePack extension code in input"
  | InvalidInteger => text "Could not coerce integer to a deserialized type"
  | InvalidType => text "Invalid type"
  | InvalidUnicodeCodePoint => text "Invalid unicode code point"
  | ExpectedInteger => text "Expected MessagePack integer"
  | ExpectedNumber => text "Expected MessagePack number"
  | ExpectedString => text "Expected MessagePack string"
  | ExpectedBin => text "Expected MessagePack bin"
  | ExpectedNil => text "Expected MessagePack nil"
  | ExpectedArray => text "Expected MessagePack array"
  | ExpectedMap => text "Expected MessagePack map"
  | ExpectedStruct => text "Expected MessagePack map or array"
  | ExpectedIdentifier => text "Expected a struct field or enum variant identifier"
  | TrailingElements => text "Too many elements for a deserialized type"
  | InvalidLength => text "Invalid length"
  | DeserializeError =>
    match custom with
    | Some s => s ++ text " while deserializing MessagePack"
    | None => text "MessagePack does not match deserializer’s expected format"
    end
  end%list.

(** ser-write-json/src/de.rs:190-242. *)
Definition js_de_text (custom : option bytes) (e : js_de_error) : bytes :=
  match e with
  | JUnexpectedEof => text "Unexpected end of JSON input"
  | JInvalidEscapeSequence => text "Invalid JSON string escape sequence"
  | JStringControlChar => text "A control ASCII character found in a JSON string"
  | JExpectedArrayCommaOrEnd => text "Expected `','` or `']'`"
  | JExpectedArrayEnd => text "Expected ']'"
  | JLeadingArrayComma => text "JSON array content starts with a leading `','`"
  | JTrailingArrayComma => text "JSON array content ends with a trailing `','`"
  | JExpectedObjectCommaOrEnd => text "Expected `','` or `'}'`"
  | JExpectedObjectEnd => text "Expected `'}'`"
  | JLeadingObjectComma => text "JSON object content starts with a leading `','`"
  | JTrailingObjectComma => text "JSON object content ends with a trailing `','`"
  | JExpectedColon => text "Expected `':'`"
  | JExpectedToken => text "Expected either `true`, `false`, or `null`."
  | JExpectedNull => text "Expected `null`"
  | JExpectedString => text "Expected `'""'`"
  | JExpectedArray => text "Expeced a JSON array"
  | JExpectedObject => text "Expected a JSON object"
  | JExpectedStruct => text "Expected a JSON object or an array"
  | JExpectedEnumValue => text "Expected this character to be `'""'` or `'{'`"
  | JExpectedEnumObjectEnd => text "Expected this character to be `'}'`"
  | JInvalidNumber => text "Invalid number"
  | JInvalidType => text "Invalid type"
  | JInvalidUnicodeCodePoint => text "Invalid unicode code point"
  | JKeyMustBeAString => text "Object key is not a string"
  | JTrailingCharacters => text "JSON has non-whitespace trailing character after the value"
  | JUnexpectedChar => text "Unexpected token while parsing a JSON value"
  | JInvalidLength => text "Invalid length"
  | JDeserializeError =>
    match custom with
    | Some s => s ++ text " while deserializing JSON"
    | None => text "JSON does not match deserializer’s expected format"
    end
  end%list.

(** ser-write-msgpack/src/ser.rs:131-165; [writer] is the [Display] of the writer's error.
    [MPanic] is the model's mark for a panic: no error, no text. *)
Definition mp_ser_text {E} (writer : E -> bytes) (custom : option bytes) (e : mp_ser_error E) : option bytes :=
  match e with
  | MWriter e => Some (writer e)
  | MMapLength => Some (text "unknown or invalid map length")
  | MSeqLength => Some (text "unknown or invalid sequence length")
  | MStrLength => Some (text "invalid string length")
  | MDataLength => Some (text "invalid byte array length")
  | MFieldSkipped => Some (text "skipped a field in a middle of struct")
  | MFormatError => Some (text "error collecting a string")
  | MSerializeError =>
    match custom with
    | Some s => Some (s ++ text " while serializing MessagePack")
    | None => Some (text "error while serializing MessagePack")
    end
  | MPanic => None
  end%list.

(** ser-write-json/src/ser.rs:59-91. *)
Definition js_ser_text {E} (writer : E -> bytes) (custom : option bytes) (e : js_ser_error E) : option bytes :=
  match e with
  | JWriter e => Some (writer e)
  | JInvalidKeyType => Some (text "invalid JSON object key data type")
  | JUtf8Encode => Some (text "error encoding JSON as UTF-8 string")
  | JFormatError => Some (text "error while collecting a string")
  | JSerializeError =>
    match custom with
    | Some s => Some (s ++ text " while serializing JSON")
    | None => Some (text "error while serializing JSON")
    end
  | JPanic => None
  end%list.
