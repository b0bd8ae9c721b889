(** The parameter transform as a JSON value: momentum/io/gltf/utils/json_utils.cpp.

    Simplifications: those of Json_model; of a transform there are its names, the entries that are stored in its matrix (row, column and value; as many columns as names
    and seven rows for every joint), its offsets and which joint parameters are active. Sets and pose constraints are written apart. *)

From Coq Require Import List Arith Ascii Bool String Reals.
From Verif Require Import Prelude Loops Str_model Lines_model Marker_model LocIO_model LimIO_model ModelDef_model Json_model.
Import ListNotations.
Local Open Scope outcome_scope.
Local Open Scope list_scope.

Record jtransform := JT {
  t_names : list str;
  t_entries : list (nat * nat * R);
  t_offsets : list R;
  t_active : list bool
}.

(** j[k1][k2]... = v, where what is null becomes an object. *)
Fixpoint put_path (ks : list str) (v : json) (j : json) : outcome json :=
  match ks with
  | [] => Ok v
  | k :: r =>
    match j with
    | JNull => let* x := put_path r v JNull in Ok (JObj [(k, x)])
    | JObj m => let* x := put_path r v (match lookup m k with Some x => x | None => JNull end) in Ok (JObj (obj_set k x m))
    | _ => Throw
    end
  end.

(** The entries of one row, lines 83-90. *)
Fixpoint row_into (names : list str) (jn ch : str) (row : nat) (es : list (nat * nat * R)) (j : json) : outcome json :=
  match es with
  | [] => Ok j
  | (r, c, x) :: es =>
    if r =? row then
      match nth_error names c with
      | Some p => let* j := put_path [lit "joints"; jn; ch; p] (JNum x) j in row_into names jn ch row es j
      | None => UB
      end
    else row_into names jn ch row es j
  end.
(** The loop over the seven parameters, lines 81-91; [cs] are the names from number [d] on. *)
Fixpoint channels_into (names : list str) (jn : str) (base d : nat) (cs : list str) (es : list (nat * nat * R)) (j : json) : outcome json :=
  match cs with
  | [] => Ok j
  | ch :: r => let* j := row_into names jn ch (base + d) es j in channels_into names jn base (S d) r es j
  end.
(** The loop over the joints, lines 78-92. *)
Fixpoint joints_into (names : list str) (jt : nat) (joints : list str) (es : list (nat * nat * R)) (j : json) : outcome json :=
  match joints with
  | [] => Ok j
  | jn :: r => let* j := channels_into names jn (jt * 7) 0 param_names es j in joints_into names (S jt) r es j
  end.
(** parameterTransformToJson, lines 75-93, for a null value, which the caller gives it (gltf_builder.cpp:885). *)
Definition transform_to_json (joints : list str) (t : jtransform) : outcome json :=
  let* j := put_path [lit "parameters"] (JArr (map JStr (t_names t))) JNull in
  joints_into (t_names t) 0 joints (t_entries t) j.

(** Lines 144-163. *)
Definition entry_from (names : list str) (row : nat) (p : str * json) : outcome (list (nat * nat * R)) :=
  let* w := get_num (snd p) in
  match index_from (fst p) names 0 with None => Throw | Some k => Ok [(row, k, w)] end.
(** Lines 122-164: the row that becomes active and its entries. *)
Definition channel_from (names : list str) (jt : nat) (p : str * json) : outcome (list (nat * list (nat * nat * R))) :=
  match index_from (fst p) param_names 0 with
  | None => Throw
  | Some d => let* es := collect (entry_from names (jt * 7 + d)) (jitems (snd p)) in Ok [(jt * 7 + d, es)]
  end.
(** Lines 115-165. *)
Definition joint_from (joints names : list str) (p : str * json) : outcome (list (nat * list (nat * nat * R))) :=
  match index_from (fst p) joints 0 with None => Throw | Some jt => collect (channel_from names jt) (jitems (snd p)) end.
(** j.find(k), where only an object has entries. *)
Definition find_key (j : json) (k : str) : outcome json :=
  match j with JObj m => match lookup m k with Some v => Ok v | None => Throw end | _ => Throw end.
(** Lines 97-171. *)
Definition parse_json (joints : list str) (j : json) : outcome jtransform :=
  let* ps := find_key j (lit "parameters") in
  let* names := collect (fun e => let* n := get_str (snd e) in Ok [n]) (jitems ps) in
  let* js := find_key j (lit "joints") in
  let* rows := collect (joint_from joints names) (jitems js) in
  Ok (JT names (flat_map snd rows) (repeat 0%R (List.length joints * 7)) (map (fun r => existsb (Nat.eqb r) (map fst rows)) (seq 0 (List.length joints * 7)))).
(** ParameterTransformT::identity, parameter_transform.cpp:52-69. *)
Definition identity_of (joints : list str) : jtransform :=
  let n := List.length joints * 7 in
  JT (flat_map (fun jn => map (fun ch => jn ++ "_"%char :: ch) param_names) joints) (map (fun i => (i, i, 1%R)) (seq 0 n)) (repeat 0%R n) (repeat true n).
(** parameterTransformFromJson, lines 95-178: every exception is caught. *)
Definition transform_from_json (joints : list str) (j : json) : outcome jtransform :=
  match parse_json joints j with Throw => Ok (identity_of joints) | o => o end.
