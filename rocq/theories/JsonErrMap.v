(** Vocabulary used to state properties of the JSON serializers. *)
From Verif Require Import Prelude Writer SerdeSer JsonSpec JsonSer.

(** Change the writer's error inside a serializer error. *)
Definition js_err_map {E F} (f : E -> F) (e : js_ser_error E) : js_ser_error F :=
  match e with
  | JWriter e => JWriter (f e)
  | JInvalidKeyType => JInvalidKeyType | JUtf8Encode => JUtf8Encode | JFormatError => JFormatError
  | JSerializeError => JSerializeError | JPanic => JPanic
  end.

(** The complete output of a value, or the error it fails with, before the UTF-8
    check of [to_string_pass_bytes]. *)
Definition js_full (fp : float_printer) (enc : byte_encoder) (v : sval) : result bytes (js_ser_error ser_error) :=
  match js_to_writer VecWriter fp enc [] v with
  | (out, Ok _) => Ok out
  | (_, Err e) => Err e
  end.

(** The documented form of byte strings under each encoder that fixes one. *)
Definition bytes_doc_of (enc : byte_encoder) : bytes -> option jv :=
  match enc with
  | ArrayByteEncoder => bytes_array
  | HexStrByteEncoder => bytes_hex
  | Base64ByteEncoder => bytes_base64
  | PassThroughByteEncoder => fun _ => None
  end.
Definition js_value (fp : float_printer) (enc : byte_encoder) : sval -> option jv :=
  js_doc (bytes_doc_of enc) (f32_num (format_f32 fp)) (f64_num (format_f64 fp)).

(** What is assumed of ryu-js: finite floats are printed as JSON numbers. *)
Definition printer_ok (fp : float_printer) : Prop :=
  (forall b, 0 <= b < 2 ^ 32 -> finite32 b -> json_number (format_f32 fp b)) /\
  (forall b, 0 <= b < 2 ^ 64 -> finite64 b -> json_number (format_f64 fp b)).
