(** Specification: what a struct that refuses unknown fields is read from (C77).  From
    [JsonDe] only the enumeration of the decoders is used. *)
From Verif Require Import Prelude SerdeSer FloatOps MpSpec Types MpTypeSpec JsonSpec JsonTypeSpec JsonFaultSpec JsonDe.

(** MessagePack: the entries of a map, each of a field, no field twice. *)
Inductive known_entries (names : list bytes) (ps : list (val -> bytes -> Prop)) :
  list (option val) -> Z -> bytes -> list (option val) -> Prop :=
| KE_nil got : known_entries names ps got 0 [] got
| KE_field got n i p v k b rest got' :
    nth_error got i = Some None -> nth_error ps i = Some p -> ident_enc names i k -> p v b ->
    known_entries names ps (set_nth got i (Some v)) n rest got' ->
    known_entries names ps got (1 + n) (k ++ b ++ rest) got'.
Definition deny_enc (fo : float_ops) (fs : list (bytes * fattr * ty)) (l : list val) (bs : bytes) : Prop :=
  let ps := map (fun f => adm fo (snd f)) fs in
  (* an array; fields beyond its end have their default *)
  (exists n h b, bs = h ++ b /\ (n <= length fs)%nat /\ arr_hdr (Z.of_nat n) h /\ length l = length fs /\
     seq_enc (zip (fun p v => p v) (firstn n ps) (firstn n l)) b /\
     all2 (fun f v => attr_of f = FDefault v) (skipn n fs) (skipn n l)) \/
  (* a map *)
  (exists n h b got, bs = h ++ b /\ map_hdr n h /\
     known_entries (map name_of fs) ps (map (fun _ => None) fs) n b got /\ all_fields fs got l).
(** The beginning of a map up to a key that is no field's. *)
Definition deny_unknown (fo : float_ops) (fs : list (bytes * fattr * ty)) (bs : bytes) : Prop :=
  exists n m h b got k, bs = h ++ b ++ k /\ map_hdr n h /\ m < n /\
    known_entries (map name_of fs) (map (fun f => adm fo (snd f)) fs) (map (fun _ => None) fs) m b got /\
    unknown_enc (map name_of fs) k.

(** JSON: the members of an object, each of a field, no field twice. *)
Inductive known_members (names : list bytes) (ps : list (val -> jv -> Prop)) :
  list (option val) -> list (bytes * jv) -> list (option val) -> Prop :=
| KM_nil got : known_members names ps got [] got
| KM_field got i n p v raw d ms got' :
    nth_error got i = Some None -> nth_error ps i = Some p -> nth_error names i = Some n -> literal raw n -> p v d ->
    known_members names ps (set_nth got i (Some v)) ms got' ->
    known_members names ps got ((raw, d) :: ms) got'.
Definition deny_doc (reads : ty -> val -> jv -> Prop) (fs : list (bytes * fattr * ty)) (l : list val) (d : jv) : Prop :=
  let ps := map (fun f => reads (snd f)) fs in
  (* an array; fields beyond its end have their default *)
  (exists ds, d = JArr ds /\ (length ds <= length fs)%nat /\ length l = length fs /\
     all3 (fun p v d => p v d) (firstn (length ds) ps) (firstn (length ds) l) ds /\
     all2 (fun f v => attr_of f = FDefault v) (skipn (length ds) fs) (skipn (length ds) l)) \/
  (* an object *)
  (exists ms got, d = JObj ms /\ known_members (map name_of fs) ps (map (fun _ => None) fs) ms got /\ all_fields fs got l).
(** The members of fields at the beginning of [l], no field twice, and what is left after them. *)
Inductive takes_known (f32_of f64_of : bytes -> option Z) (dec : byte_decoder) (fs : list (bytes * fattr * ty)) :
  list (option val) -> bool -> bytes -> list (option val) -> bool -> bytes -> Prop :=
| TK_nil got first l : takes_known f32_of f64_of dec fs got first l got first l
| TK_field got first l i f v raw m x y got' first' k :
    item 125 first l (34 :: raw ++ 34 :: m) -> nth_error got i = Some None -> nth_error fs i = Some f -> literal raw (name_of f) ->
    begins m 58 x -> takes f32_of f64_of dec (snd f) v x y ->
    takes_known f32_of f64_of dec fs (set_nth got i (Some v)) false y got' first' k ->
    takes_known f32_of f64_of dec fs got first l got' first' k.
(** An object up to a key that is no field's. *)
Definition deny_member (f32_of f64_of : bytes -> option Z) (dec : byte_decoder) (fs : list (bytes * fattr * ty)) (l : bytes) : Prop :=
  exists r got first k raw s m, begins l 123 r /\ takes_known f32_of f64_of dec fs (map (fun _ => None) fs) true r got first k /\
    item 125 first k (34 :: raw ++ 34 :: m) /\ literal raw s /\ ~ In s (map name_of fs).
