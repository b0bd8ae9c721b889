(** Parameter sets, pose constraints, parameter limits and matrices as JSON values: momentum/io/gltf/utils/json_utils.cpp and json_utils.h.

    Simplifications: numbers are reals; messages are left out; what nlohmann::json does is modelled as far as these functions use it. A result with entries that are never
    set is [UB], like an access that is not defined. *)

From Coq Require Import List Arith Ascii Bool String Reals Decimal DecimalString.
From Verif Require Import Prelude Loops Str_model Lines_model Marker_model LocIO_model LimIO_model ModelDef_model.
Import ListNotations.
Local Open Scope outcome_scope.
Local Open Scope list_scope.

(** nlohmann::json. The entries of an object are sorted by their keys, which are different (it is a std::map). *)
Inductive json :=
| JNull
| JBool (b : bool)
| JNum (x : R)
| JStr (s : str)
| JArr (l : list json)
| JObj (m : list (str * json)).

(** operator< of std::string. *)
Fixpoint s_ltb (a b : str) : bool :=
  match a, b with
  | _, [] => false
  | [], _ => true
  | c :: a', d :: b' => if code c <? code d then true else if code d <? code c then false else s_ltb a' b'
  end.
(** j[k] = v for an object. *)
Fixpoint obj_set (k : str) (v : json) (m : list (str * json)) : list (str * json) :=
  match m with
  | [] => [(k, v)]
  | (k', v') :: r => if s_eqb k' k then (k, v) :: r else if s_ltb k k' then (k, v) :: m else (k', v') :: obj_set k v r
  end.
(** An object made by one assignment after the other. *)
Definition obj (l : list (str * json)) : json := JObj (fold_left (fun m p => obj_set (fst p) (snd p) m) l []).
(** j.size(). *)
Definition jsize (j : json) : nat :=
  match j with JNull => 0 | JArr l => List.length l | JObj m => List.length m | _ => 1 end.
(** The key that items() gives to an element of an array. *)
Definition index_key (i : nat) : str := lit (NilZero.string_of_uint (Nat.to_uint i)).
(** j.items(), and the values are those of a loop over j. *)
Definition jitems (j : json) : list (str * json) :=
  match j with
  | JNull => []
  | JArr l => combine (map index_key (seq 0 (List.length l))) l
  | JObj m => m
  | _ => [([], j)]
  end.
(** The conversions to float, std::string and std::vector<float>. *)
Definition get_num (j : json) : outcome R :=
  match j with JNum x => Ok x | JBool b => Ok (if b then 1 else 0)%R | _ => Throw end.
Definition get_str (j : json) : outcome str := match j with JStr s => Ok s | _ => Throw end.
Fixpoint get_nums (l : list json) : outcome (list R) :=
  match l with [] => Ok [] | j :: r => let* x := get_num j in let* y := get_nums r in Ok (x :: y) end.
Definition get_vec (j : json) : outcome (list R) := match j with JArr l => get_nums l | _ => Throw end.
(** j[i] and j[k] for a constant j: what is not there is not checked. *)
Definition jelem (j : json) (i : nat) : outcome json :=
  match j with JArr l => match nth_error l i with Some e => Ok e | None => UB end | _ => Throw end.
Definition jfield (j : json) (k : str) : outcome json :=
  match j with JObj m => match lookup m k with Some v => Ok v | None => UB end | _ => Throw end.
(** j.value(k, d). *)
Definition str_value (j : json) (k d : str) : outcome str :=
  match j with JObj m => match lookup m k with Some v => get_str v | None => Ok d end | _ => Throw end.
Definition num_value (j : json) (k : str) (d : R) : outcome R :=
  match j with JObj m => match lookup m k with Some v => get_num v | None => Ok d end | _ => Throw end.

(** A loop that collects. *)
Fixpoint collect {A B} (f : A -> outcome (list B)) (l : list A) : outcome (list B) :=
  match l with [] => Ok [] | a :: r => let* x := f a in let* y := collect f r in Ok (x ++ y) end.

(** ** Matrices: lists of columns *)

(** toJson, json_utils.h:24-36. *)
Definition mat_to_json (cols : list (list R)) : json := JArr (map (fun c => JArr (map JNum c)) cols).
(** Lines 52-55 and 78-81: a column that is too long is written past its end and one that is too short leaves entries unset. *)
Definition json_column (rows : nat) (j : json) (i : nat) : outcome (list (list R)) :=
  let* e := jelem j i in
  let* c := get_vec e in
  if List.length c =? rows then Ok [c] else UB.
(** Lines 47-56. *)
Definition dyn_from_json (j : json) : outcome (nat * list (list R)) :=
  match jsize j with
  | 0 => Ok (0, [])
  | n =>
    match j with
    | JArr (e :: _) => let* cs := collect (json_column (jsize e) j) (seq 0 n) in Ok (jsize e, cs)
    | _ => Throw
    end
  end.
(** Lines 65 and 70. *)
Definition plain_first (j : json) : outcome bool :=
  let* e := jelem j 0 in Ok (match e with JArr _ => false | _ => true end).
(** Lines 60-83, for at least one row and one column. *)
Definition fixed_from_json (rows cols : nat) (j : json) : outcome (list (list R)) :=
  let* a := (if (rows =? 1) && (jsize j =? cols) then plain_first j else Ok false) in
  if a then let* c := get_vec j in Ok (map (fun x => [x]) c)
  else
    let* b := (if (cols =? 1) && (jsize j =? rows) then plain_first j else Ok false) in
    if b then let* c := get_vec j in Ok [c]
    else if jsize j =? 0 then UB
    else collect (json_column rows j) (seq 0 cols).

(** ** Parameter sets *)

(** Lines 23-27: std::bitset::test throws for a bit that does not exist. *)
Fixpoint set_names (names : list str) (i : nat) (s : list nat) : outcome (list json) :=
  match names with
  | [] => Ok []
  | n :: r =>
    if i <? max_params then
      let* y := set_names r (S i) s in
      Ok (if existsb (Nat.eqb i) s then JStr n :: y else y)
    else Throw
  end.
Fixpoint sets_into (names : list str) (sets : list (str * list nat)) (m : list (str * json)) : outcome (list (str * json)) :=
  match sets with
  | [] => Ok m
  | (n, s) :: r => let* l := set_names names 0 s in sets_into names r (obj_set n (JArr l) m)
  end.
(** parameterSetsToJson, lines 19-29. *)
Definition sets_to_json (names : list str) (sets : list (str * list nat)) : outcome json :=
  let* m := sets_into names sets [] in Ok (JObj m).
(** Lines 36-42: std::bitset::set throws for a bit that does not exist. *)
Definition set_bit (names : list str) (p : str * json) : outcome (list nat) :=
  let* n := get_str (snd p) in
  match index_from n names 0 with
  | None => Ok []
  | Some k => if k <? max_params then Ok [k] else Throw
  end.
(** parameterSetsFromJson, lines 31-46; the keys are different, so that every set is new. *)
Definition sets_from_json (names : list str) (j : json) : outcome (list (str * list nat)) :=
  collect (fun p => let* s := collect (set_bit names) (jitems (snd p)) in Ok [(fst p, s)]) (jitems j).

(** ** Pose constraints *)

(** j[n][k] = v, where j[n] is made when it is not there. *)
Definition put (m : list (str * json)) (n k : str) (v : R) : list (str * json) :=
  obj_set n (JObj (obj_set k (JNum v) (match lookup m n with Some (JObj o) => o | _ => [] end))) m.
(** Lines 51-53. *)
Fixpoint pose_into (names : list str) (n : str) (vs : list (nat * R)) (m : list (str * json)) : outcome (list (str * json)) :=
  match vs with
  | [] => Ok m
  | (k, v) :: r => match nth_error names k with Some p => pose_into names n r (put m n p v) | None => UB end
  end.
(** Lines 50-54. *)
Fixpoint poses_into (names : list str) (ps : list (str * list (nat * R))) (m : list (str * json)) : outcome (list (str * json)) :=
  match ps with
  | [] => Ok m
  | (n, vs) :: r => let* m' := pose_into names n vs m in poses_into names r m'
  end.
(** poseConstraintsToJson, lines 48-55. *)
Definition poses_to_json (names : list str) (ps : list (str * list (nat * R))) : outcome json :=
  let* m := poses_into names ps [] in Ok (JObj m).
(** Lines 62-69. *)
Definition pose_value (names : list str) (p : str * json) : outcome (list (nat * R)) :=
  let* v := get_num (snd p) in
  Ok (match index_from (fst p) names 0 with None => [] | Some k => [(k, v)] end).
(** poseConstraintsFromJson, lines 57-73. *)
Definition poses_from_json (names : list str) (j : json) : outcome (list (str * list (nat * R))) :=
  collect (fun p => let* s := collect (pose_value names) (jitems (snd p)) in Ok [(fst p, s)]) (jitems j).

(** ** Parameter limits; an ellipsoid is the list of its columns *)

(** toM(), math/constants.h:68-71. *)
Definition to_m : R := (1 / 100)%R.
(** translation() *= f: the first three entries of the fourth column. *)
Definition on_translation (f : R -> R) (m : list (list R)) : list (list R) :=
  match m with
  | [a; b; c; [x; y; z; w]] => [a; b; c; [f x; f y; f z; w]]
  | _ => m
  end.
Section Limits.
Context (joints params : list str).
(** name[i] and joints[i].name. *)
Definition name_at (l : list str) (i : nat) : outcome json := match nth_error l i with Some n => Ok (JStr n) | None => UB end.
(** Two floats of an Eigen vector as an array. *)
Definition vec2 (a b : R) : json := JArr [JNum a; JNum b].

(** The body of the loop of lines 182-238. *)
Definition limit_to_json (l : plimit R (list (list R))) : outcome json :=
  let w := (lit "weight", JNum (p_weight l)) in
  match p_limit l with
  | LMinMax k lo hi =>
    let* n := name_at params k in
    Ok (obj [w; (lit "type", JStr (lit "minmax")); (lit "parameter", n); (lit "limits", vec2 lo hi)])
  | LMinMaxJoint jt q lo hi =>
    let* n := name_at joints jt in
    let* a := name_at param_names q in
    Ok (obj [w; (lit "type", JStr (lit "minmax_joint")); (lit "jointIndex", n); (lit "jointParameter", a); (lit "limits", vec2 lo hi)])
  | LMinMaxPassive jt q lo hi =>
    let* n := name_at joints jt in
    let* a := name_at param_names q in
    Ok (obj [w; (lit "type", JStr (lit "minmax_joint_passive")); (lit "jointIndex", n); (lit "jointParameter", a); (lit "limits", vec2 lo hi)])
  | LLinear i t s o _ _ =>
    let* n := name_at params i in
    let* a := name_at params t in
    Ok (obj [w; (lit "type", JStr (lit "linear")); (lit "referenceParameter", n); (lit "targetParameter", a); (lit "scale", JNum s); (lit "offset", JNum o)])
  | LHalfPlane a b nm o =>
    let* n := name_at params a in
    let* k := name_at params b in
    Ok (obj [w; (lit "type", JStr (lit "half_plane")); (lit "param1", n); (lit "param2", k); (lit "normal", vec2 (fst nm) (snd nm)); (lit "offset", JNum o)])
  | LEllipsoid p o q m =>
    let* n := name_at joints p in
    let* k := name_at joints q in
    Ok (obj [w; (lit "type", JStr (lit "ellipsoid")); (lit "parent", n); (lit "ellipsoidParent", k);
             (lit "offset", JArr (map (fun x => JNum (x * to_m)%R) o));
             (lit "ellipsoid", mat_to_json (on_translation (fun x => (x * to_m)%R) m))])
  end.
(** parameterLimitsToJson, lines 180-239. *)
Definition limits_to_json (ls : list (plimit R (list (list R)))) : outcome json :=
  let* l := collect (fun x => let* j := limit_to_json x in Ok [j]) ls in Ok (JArr l).

(** [invalid] is kInvalidIndex. *)
Context (invalid : nat).
(** getParameterIdByName, getJointIdByName and the loops of lines 259-264 and 273-278, of the string under a key. *)
Definition index_value (names : list str) (j : json) (k : str) : outcome nat :=
  let* n := str_value j k [] in Ok (match index_from n names 0 with Some i => i | None => invalid end).
(** fromJson of a vector under a key. *)
Definition vec_field (n : nat) (j : json) (k : str) : outcome (list R) :=
  let* e := jfield j k in
  let* c := fixed_from_json n 1 e in
  match c with [v] => Ok v | _ => UB end.
Definition pair_field (j : json) (k : str) : outcome (R * R) :=
  let* v := vec_field 2 j k in match v with [a; b] => Ok (a, b) | _ => UB end.
Definition num_field (j : json) (k : str) : outcome R := let* e := jfield j k in get_num e.
(** Lines 297-306, and lines 307-319 with other keys. *)
Definition ellipsoid_from_json (pk mk : str) (j : json) : outcome (limit R (list (list R))) :=
  let* p := index_value joints j (lit "parent") in
  let* q := index_value joints j pk in
  let* o := vec_field 3 j (lit "offset") in
  let* e := jfield j mk in
  let* m := fixed_from_json 4 4 e in
  Ok (LEllipsoid p (map (fun x => (x / to_m)%R) o) q (on_translation (fun x => (x / to_m)%R) m)).
(** The body of the loop of lines 244-324; the range of a linear limit stays zero. *)
Definition limit_from_json (j : json) : outcome (plimit R (list (list R))) :=
  let* t := str_value j (lit "type") [] in
  let* w := num_value j (lit "weight") 0%R in
  let* l :=
    (if s_eqb t (lit "minmax") then
       let* k := index_value params j (lit "parameter") in
       let* v := pair_field j (lit "limits") in
       Ok (LMinMax k (fst v) (snd v))
     else if s_eqb t (lit "minmax_joint") then
       let* n := index_value joints j (lit "jointIndex") in
       let* q := index_value param_names j (lit "jointParameter") in
       let* v := pair_field j (lit "limits") in
       Ok (LMinMaxJoint n q (fst v) (snd v))
     else if s_eqb t (lit "minmax_joint_passive") then
       let* n := index_value joints j (lit "jointIndex") in
       let* q := index_value param_names j (lit "jointParameter") in
       let* v := pair_field j (lit "limits") in
       Ok (LMinMaxPassive n q (fst v) (snd v))
     else if s_eqb t (lit "linear") then
       let* i := index_value params j (lit "referenceParameter") in
       let* k := index_value params j (lit "targetParameter") in
       let* s := num_field j (lit "scale") in
       let* o := num_field j (lit "offset") in
       Ok (LLinear i k s o 0%R 0%R)
     else if s_eqb t (lit "half_plane") then
       let* a := index_value params j (lit "param1") in
       let* b := index_value params j (lit "param2") in
       let* n := pair_field j (lit "normal") in
       let* o := num_field j (lit "offset") in
       Ok (LHalfPlane a b n o)
     else if s_eqb t (lit "ellipsoid") then ellipsoid_from_json (lit "ellipsoidParent") (lit "ellipsoid") j
     else if s_eqb t (lit "elipsoid") then ellipsoid_from_json (lit "elipsoidParent") (lit "elipsoid") j
     else Throw) in
  Ok (PL l w).
(** parameterLimitsFromJson, lines 241-327. *)
Definition limits_from_json (j : json) : outcome (list (plimit R (list (list R)))) :=
  collect (fun e => let* l := limit_from_json (snd e) in Ok [l]) (jitems j).
End Limits.
