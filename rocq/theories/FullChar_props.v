(** Theorems about characters that are loaded from files (C127). *)

From Coq Require Import List Arith Ascii ZArith NArith Bool String Reals Lia.
From Verif Require Import Prelude Str_model Str_spec Lines_model Lines_spec ParamTransform_model ParamIO_model ParamIO_props LocIO_model LocIO_spec LocIO_props LimIO_model LimIO_spec LimIO_props
  ModelDef_model ModelDef_spec ModelDef_props Subject_model FullChar_model.
Import ListNotations.
Local Open Scope outcome_scope.
Local Open Scope list_scope.
Local Open Scope nat_scope.

(** What holds of a character whose parts belong together. *)
Definition whole {M T} (c : full M T) : Prop :=
  fits (map fst (c_joints c)) (ld_pt (c_loaded c)) (ld_sets (c_loaded c)) (ld_poses (c_loaded c)) (ld_limits (c_loaded c)).

(** C127. A character that is loaded has the joints of the character file. Without a parameter file it has its parameters, limits, sets and pose constraints too;
    with one that has sections they are ones of parameters and joints that exist. Without a locator file it has the locators of the character file, with one each has a
    parent. *)
Theorem full_character_loaded : forall (M T : Type) stod (e : nums R M) (le : env R T) fuel gltf fbx f params locs c,
  load_buffers stod e le fuel gltf fbx f params locs = Ok c ->
  exists base, f <> FUnknown /\ match f with FGltf => gltf | _ => fbx end = Ok (Some base) /\ c_joints c = c_joints base /\
    (params = None -> c_loaded c = c_loaded base) /\
    (forall text m, params = Some text -> load_sections fuel text = Ok m -> m <> [] -> whole c) /\
    (locs = None -> c_locators c = c_locators base) /\
    (locs <> None -> List.Forall (fun l => l_parent l <> None) (c_locators c)).
Proof.
  intros M T stod e le fuel gltf fbx f params locs c H. unfold load_buffers in H. step H. destruct a as [base|]; [|discriminate]. step H. exists base.
  assert (B : f <> FUnknown /\ match f with FGltf => gltf | _ => fbx end = Ok (Some base)) by (destruct f; cbn in E; (split; [discriminate || idtac|]; try exact E); discriminate).
  split; [apply B|]. split; [apply B|].
  assert (P : c_joints a = c_joints base /\ c_locators a = c_locators base /\ (params = None -> c_loaded a = c_loaded base) /\
    (forall text m, params = Some text -> load_sections fuel text = Ok m -> m <> [] -> whole a)).
  { unfold add_parameters in E0. destruct params as [text|].
    - step E0. destruct (load_parameters stod e fuel (joint_names base) a0 (c_loaded base)) as [l o] eqn:L. cbn [fst snd] in E0. step E0. injection E0 as <-. cbn [c_joints c_locators c_loaded].
      split; [reflexivity|]. split; [reflexivity|]. split; [discriminate|]. intros t m Et Em N. injection Et as <-. rewrite E1 in Em. injection Em as <-. destruct a1.
      exact (loaded_parameters_fit _ _ _ _ _ _ _ _ L N).
    - injection E0 as <-. split; [reflexivity|]. split; [reflexivity|]. split; [reflexivity|discriminate]. }
  destruct P as [P1 [P2 [P3 P4]]]. unfold add_locators in H. destruct locs as [text|].
  - step H. injection H as <-. cbn [c_joints c_locators c_loaded]. split; [exact P1|]. split; [exact P3|]. split; [exact P4|]. split; [discriminate|]. intros _.
    pose proof (proj1 (proj2 (loaded_locators_have_parents _ _ le (c_joints a) text) _ E1)) as A. eapply Forall_impl; [|exact A]. cbn. tauto.
  - injection H as <-. split; [exact P1|]. split; [exact P3|]. split; [exact P4|]. split; [intros _; exact P2|congruence].
Qed.
Print Assumptions full_character_loaded.

(** C127. The format is that of the extension in either case; with any other extension an exception is thrown. *)
Theorem character_format : forall (M T : Type) stod (e : nums R M) (le : env R T) fuel gltf fbx ext params locs,
  ((map to_lower ext = lit ".glb" \/ map to_lower ext = lit ".gltf") -> load_full stod e le fuel gltf fbx ext params locs = load_buffers stod e le fuel gltf fbx FGltf params locs) /\
  (map to_lower ext = lit ".fbx" -> load_full stod e le fuel gltf fbx ext params locs = load_buffers stod e le fuel gltf fbx FFbx params locs) /\
  (~ In (map to_lower ext) [lit ".glb"; lit ".gltf"; lit ".fbx"] -> load_full stod e le fuel gltf fbx ext params locs = Throw).
Proof.
  intros M T stod e le fuel gltf fbx ext params locs. unfold load_full, char_format. destruct ext as [|c ext].
  - split; [intros [H|H]; discriminate|]. split; [discriminate|reflexivity].
  - generalize (map to_lower (c :: ext)). intros x. unfold s_eqb. split; [|split].
    + intros [-> | ->]; reflexivity.
    + intros ->. reflexivity.
    + intros N. destruct (list_eq_dec ascii_dec x (lit ".glb")) as [->|]; [destruct N; left; reflexivity|]. destruct (list_eq_dec ascii_dec x (lit ".gltf")) as [->|]; [destruct N; right; left; reflexivity|].
      destruct (list_eq_dec ascii_dec x (lit ".fbx")) as [->|]; [destruct N; right; right; left; reflexivity|]. reflexivity.
Qed.
Print Assumptions character_format.

(** ** Examples *)

Definition exfc_env : env R unit :=
  {| e_show := fun _ => lit "1"; e_stof := ex_stod; e_showz := fun _ => lit "1"; e_stoi := fun _ => Some 1%Z; e_zero := 0%R; e_one := 1%R; e_is_zero := fun _ => false;
     e_world := fun _ v => v; e_local := fun _ v => v |}.
(** A character with two joints, two parameters and a limit of the second. *)
Definition exfc_base : full unit unit :=
  Full [(lit "root", tt); (lit "l_arm", tt)] (Loaded (PT ["a"; "b"]%string 14 2 [] [] [] [] [] [] []) [] [] [PL (LMinMax 1 1%R 2%R) 1%R]) [].
Example exfc_whole : whole exfc_base.
Proof. repeat split; try (intros; contradiction). constructor; [|constructor]. cbn. lia. Qed.
Definition exfc_params : str :=
  file ["Momentum Model Definition V1.0"; "[ParameterTransform]"; "root.tx = 1*bend"; "[Limits]"; "limit bend minmax [1, 2]"]%string.
Example exfc_loaded : exists c m, load_full ex_stod exmd_nums exfc_env 20 Throw (Ok (Some exfc_base)) (lit ".FBX") (Some exfc_params) None = Ok c /\
  ld_limits (c_loaded c) = [PL (LMinMax 0 1%R 2%R) 1%R] /\ load_sections 20 exfc_params = Ok m /\ m <> [].
Proof. eexists _, _. split; [lazy; reflexivity|]. split; [reflexivity|]. split; [vm_compute; reflexivity|discriminate]. Qed.

(** ** Findings *)

(** C127. A parameter file without the line of the format is no error: the character is left without parameters, but with the limits of those it had. *)
Theorem parameters_without_header_refuted : exists (base c : full unit unit) text, whole base /\ text <> [] /\
  load_full ex_stod exmd_nums exfc_env 20 Throw (Ok (Some base)) (lit ".fbx") (Some text) None = Ok c /\ pt_cols (ld_pt (c_loaded c)) = 0 /\ ~ whole c.
Proof.
  exists exfc_base. eexists. exists (file ["[ParameterTransform]"; "root.tx = 1*bend"]%string). split; [exact exfc_whole|]. split; [discriminate|]. split; [lazy; reflexivity|].
  split; [reflexivity|]. intros (_ & _ & _ & _ & H). inversion H as [|x l H1 _]; subst. cbn in H1. lia.
Qed.
Print Assumptions parameters_without_header_refuted.

(** C127. Sections with other names are no error either: all parameters are lost. *)
Theorem unknown_sections_refuted : exists (base c : full unit unit) text,
  load_full ex_stod exmd_nums exfc_env 20 Throw (Ok (Some base)) (lit ".fbx") (Some text) None = Ok c /\ text = file ["Momentum Model Definition V1.0"; "[parametertransform]"; "root.tx = 1*bend"]%string /\
  pt_cols (ld_pt (c_loaded base)) = 2 /\ pt_cols (ld_pt (c_loaded c)) = 0 /\ ld_limits (c_loaded c) = [].
Proof.
  exists exfc_base. eexists _, _. split; [|split; [reflexivity|]]; [lazy; reflexivity|]. repeat split.
Qed.
Print Assumptions unknown_sections_refuted.
