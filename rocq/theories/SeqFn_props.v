(** C33, C72 and C73: error, gradient and Jacobian of a sequence. *)

From Coq Require Import Bool List Arith Lia Reals Lra.
From Coquelicot Require Import Coquelicot.
From Verif Require Import Prelude LinAlg Rbool ListUtil Loops FK_deriv_proofs
  Seq_spec Seq_model Seq_proofs SeqFn_model SeqFn_spec SeqFn_proofs SeqFn_grad_proofs
  SeqFn_jac_proofs SeqFn_result_proofs.
Import ListNotations.
Local Open Scope nat_scope.

(** ** C72: the error and the gradient *)

(** getError is the sum, over the active functions, of their errors on the frames obtained from
    the joined vector. *)
Theorem sequence_error np univ nF ops o v :
  so_run np univ nF ops = Ok o ->
  let en := enabled_after (params_of ops) in
  length v = joined_size np univ en nF ->
  exists s, so_error o v = Ok (total_error o (frames_from np univ en (sq_frames (so_fn o)) v), s).
Proof.
  intros H en Lv. eexists. apply (so_error_spec np univ nF en); [|exact Lv].
  apply so_run_wf. exact H.
Qed.
Print Assumptions sequence_error.

(** Every entry of getGradient is the partial derivative of getError, if every error function's
    gradient is that of its error. *)
Theorem sequence_gradient np univ nF ops o v :
  so_run np univ nF ops = Ok o -> 0 < nF ->
  let en := enabled_after (params_of ops) in
  length v = joined_size np univ en nF ->
  (forall c, In c (calls o) ->
     good_gradient np (c_fn c) (seen (frames_from np univ en (sq_frames (so_fn o)) v) c)) ->
  exists err g, so_gradient o v = Ok (err, g) /\ length g = length v /\
    (exists s, so_error o v = Ok (err, s)) /\
    forall p, p < length v -> exists E : R -> R,
      (forall y, exists s, so_error o (store v p y) = Ok (E y, s)) /\
      is_derive E (nth p v 0%R) (nth p g 0%R).
Proof.
  intros H HF en Lv G. pose proof (so_run_wf _ _ _ _ _ H) as W.
  destruct (gradient_is_derivative np univ nF en o v W Lv G) as (err & g & E & L & S & D).
  exists err, g. split; [exact E|]. split; [exact L|]. split; [exact S|]. intros p. apply D. exact HF.
Qed.
Print Assumptions sequence_gradient.

(** ** C73: the Jacobian *)

(** The rows of the functions follow each other in the order of the calls; each row holds, at the
    slot of every enabled parameter, the derivative of that row with respect to the joined vector;
    the rest is zero. *)
Theorem sequence_jacobian np univ nF ops o v J0 r0 :
  so_run np univ nF ops = Ok o -> 0 < nF ->
  let en := enabled_after (params_of ops) in
  length v = joined_size np univ en nF ->
  let fr := frames_from np univ en (sq_frames (so_fn o)) v in
  rows_fit fr (calls o) ->
  clean J0 r0 (rows_asked (calls o)) (length v) ->
  exists J r err, so_jacobian o v J0 r0 = Ok (J, r, rows_asked (calls o), err) /\
    rows_asked (calls o) <= fm_rows J /\ fm_cols J = length v /\ rows_asked (calls o) <= fv_len r /\
    err = rsum (map (fun c => se_jerror (c_fn c) (seen fr c)) (calls o)) /\
    rows_used fr (calls o) <= rows_asked (calls o) /\
    (forall pre c post, calls o = pre ++ c :: post -> forall q, q < se_used (c_fn c) (seen fr c) ->
       fv_at r (rows_used fr pre + q) = row_value fr c q /\
       forall f i, f < nF -> i < np -> en i = true ->
         fm_at J (rows_used fr pre + q) (slot np univ en nF f i) = coefficient np univ fr c q f i) /\
    (forall q, rows_used fr (calls o) <= q -> fv_at r q = 0%R /\ forall p, p < length v -> fm_at J q p = 0%R).
Proof.
  intros H HF en Lv fr F C. rewrite Lv in C |- *. apply jacobian_spec; auto. apply so_run_wf. exact H.
Qed.
Print Assumptions sequence_jacobian.

(** With error functions whose Jacobian agrees with their gradient, 2 Jᵀr over the reported rows is
    getGradient, and getJacobian returns getError. *)
Theorem sequence_jacobian_gradient np univ nF ops o v J0 r0 :
  so_run np univ nF ops = Ok o -> 0 < nF ->
  let en := enabled_after (params_of ops) in
  length v = joined_size np univ en nF ->
  let fr := frames_from np univ en (sq_frames (so_fn o)) v in
  (forall c, In c (calls o) -> good_jacobian np (c_fn c) (seen fr c)) ->
  clean J0 r0 (rows_asked (calls o)) (length v) ->
  exists J r rows err e g, so_jacobian o v J0 r0 = Ok (J, r, rows, err) /\
    so_gradient o v = Ok (e, g) /\ (exists s, so_error o v = Ok (err, s)) /\
    forall p, p < length v -> nth p g 0%R = (2 * sumn rows (fun q => fm_at J q p * fv_at r q))%R.
Proof.
  intros H HF en Lv fr G C. apply (jacobian_gradient np univ nF en); auto. apply so_run_wf. exact H.
Qed.
Print Assumptions sequence_jacobian_gradient.

(** ModelParametersSequenceErrorFunction meets both requirements on every pair of frames. *)
Theorem motion_error_function np wt weights en a b :
  (0 <= wt)%R -> length a = np -> length b = np ->
  se_error (mps np wt weights en) [a; b] =
    (if length weights =? np then
      / 10 * wt * sumn np (fun i => if en i && Rltb 0 (nth i weights 0)
        then (nth i weights 0 * (nth i b 0 - nth i a 0)) * (nth i weights 0 * (nth i b 0 - nth i a 0)) else 0)
     else 0)%R /\
  good_gradient np (mps np wt weights en) [a; b] /\ good_jacobian np (mps np wt weights en) [a; b].
Proof.
  intros Hw La Lb. split; [|split].
  - cbn [mps se_error]. destruct (length weights =? np); [|reflexivity].
    unfold mps_sum, sumn, mps_on, mps_diff, motion_weight. cbn [nth]. ring.
  - apply mps_good_gradient; auto.
  - apply mps_good_jacobian; auto.
Qed.
Print Assumptions motion_error_function.

(** ** C33: old contents of the output matrix *)

(** Two consecutive calls give the same, whatever the matrix held before, if no active sequence
    function meets an enabled universal parameter. *)
Theorem sequence_jacobian_again_partial np univ nF ops o v J0 r0 :
  so_run np univ nF ops = Ok o -> 0 < nF ->
  let en := enabled_after (params_of ops) in
  length v = joined_size np univ en nF ->
  let fr := frames_from np univ en (sq_frames (so_fn o)) v in
  rows_fit fr (calls o) ->
  (forall c, In c (calls o) -> c_seq c = true -> forall i, i < np -> en i = true -> univ i = false) ->
  fm_rows J0 < rows_asked (calls o) \/ fm_cols J0 <> length v \/ rows_asked (calls o) <= fv_len r0 ->
  exists J r rows err J' r', so_jacobian o v J0 r0 = Ok (J, r, rows, err) /\
    so_jacobian o v J r = Ok (J', r', rows, err) /\
    fm_rows J' = fm_rows J /\ fm_cols J' = fm_cols J /\ fv_len r' = fv_len r /\
    (forall q, fv_at r' q = fv_at r q) /\
    (forall q p, p < length v -> fm_at J' q p = fm_at J q p).
Proof.
  intros H HF en Lv fr F NS HR. apply (jacobian_again np univ nF en); auto. apply so_run_wf. exact H.
Qed.
Print Assumptions sequence_jacobian_again_partial.

(** The square of parameter 0 of one frame, as an error function. *)
Definition square_error : serr :=
  {| se_weight := 1; se_frames := 1; se_size := 1;
     se_error := fun w => (nth 0 (nth 0 w []) 0 * nth 0 (nth 0 w []) 0)%R;
     se_gerror := fun w => (nth 0 (nth 0 w []) 0 * nth 0 (nth 0 w []) 0)%R;
     se_grad := fun w j => if (j =? 0)%nat then (2 * nth 0 (nth 0 w []) 0)%R else 0%R;
     se_jerror := fun w => (nth 0 (nth 0 w []) 0 * nth 0 (nth 0 w []) 0)%R;
     se_rows := fun w => [((fun j => if (j =? 0)%nat then 1%R else 0%R), nth 0 (nth 0 w []) 0%R)];
     se_used := fun _ => 1 |}.

Lemma square_good a : good_gradient 1 square_error [[a]] /\ good_jacobian 1 square_error [[a]].
Proof.
  split; constructor; try reflexivity.
  - intros i c Hi. replace i with 0 by lia. cbn [length]. rewrite sumn_S, sumn_0.
    cbn [square_error se_error se_grad moved_window map seq nth store Nat.add Nat.mul Nat.eqb length].
    auto_derive; [exact I|]. ring.
  - cbn. lia.
  - intros sub i Hs Hi. cbn [length] in Hs. replace sub with 0 by lia. replace i with 0 by lia. cbn. ring.
Qed.

Lemma one_not_le_zero : Rleb 1 0 = false.
Proof. unfold Rleb. destruct (Rle_dec 1 0); [lra|reflexivity]. Qed.

(** A universal parameter and one sequence function: the second call adds to the first. *)
Theorem sequence_jacobian_again_refuted :
  exists np univ nF ops o v J r J' r' n e,
    so_run np univ nF ops = Ok o /\ 0 < nF /\
    length v = joined_size np univ (enabled_after (params_of ops)) nF /\
    (forall c, In c (calls o) ->
       good_jacobian np (c_fn c) (seen (frames_from np univ (enabled_after (params_of ops)) (sq_frames (so_fn o)) v) c)) /\
    so_jacobian o v (FMat 0 0 (fun _ _ => 0%R)) (FVec 0 (fun _ => 0%R)) = Ok (J, r, n, e) /\
    so_jacobian o v J r = Ok (J', r', n, e) /\
    fm_at J 0 0 = 1%R /\ fm_at J' 0 0 = 2%R.
Proof.
  exists 1, (fun _ => true), 1, [AddSequence (Some 0) square_error]. do 8 eexists.
  split; [reflexivity|]. split; [lia|]. split; [exact (eq_refl (length [3%R]))|]. split.
  { unfold calls, frame_calls, sequence_calls, active. cbn. rewrite one_not_le_zero. cbn.
    intros c [<-|[]]. cbn. apply square_good. }
  split; [unfold so_jacobian, jac_size; cbn; rewrite one_not_le_zero; cbn; unfold jac_seq; cbn; rewrite one_not_le_zero; cbn; reflexivity|].
  split; [unfold so_jacobian, jac_size; cbn; rewrite one_not_le_zero; cbn; unfold jac_seq; cbn; rewrite one_not_le_zero; cbn; reflexivity|].
  cbn. split; ring.
Qed.
Print Assumptions sequence_jacobian_again_refuted.

(** A limit of one parameter: it has a row only while the parameter is positive. *)
Definition bound_error : serr :=
  {| se_weight := 1; se_frames := 1; se_size := 1;
     se_error := fun w => if Rltb 0 (nth 0 (nth 0 w []) 0%R) then (nth 0 (nth 0 w []) 0 * nth 0 (nth 0 w []) 0)%R else 0%R;
     se_gerror := fun w => if Rltb 0 (nth 0 (nth 0 w []) 0%R) then (nth 0 (nth 0 w []) 0 * nth 0 (nth 0 w []) 0)%R else 0%R;
     se_grad := fun w j => if (j =? 0)%nat && Rltb 0 (nth 0 (nth 0 w []) 0%R) then (2 * nth 0 (nth 0 w []) 0)%R else 0%R;
     se_jerror := fun w => if Rltb 0 (nth 0 (nth 0 w []) 0%R) then (nth 0 (nth 0 w []) 0 * nth 0 (nth 0 w []) 0)%R else 0%R;
     se_rows := fun w => if Rltb 0 (nth 0 (nth 0 w []) 0%R) then
        [((fun j => if (j =? 0)%nat then 1%R else 0%R), nth 0 (nth 0 w []) 0%R)] else [];
     se_used := fun w => if Rltb 0 (nth 0 (nth 0 w []) 0%R) then 1 else 0 |}.

Lemma bound_good a : good_jacobian 1 bound_error [[a]].
Proof.
  constructor; [reflexivity| |].
  - cbn. destruct (Rltb 0 a); cbn; lia.
  - intros sub i Hs Hi. cbn [length] in Hs. replace sub with 0 by lia. replace i with 0 by lia. cbn.
    destruct (Rltb 0 a); cbn; ring.
Qed.

Lemma lt_01 : Rltb 0 1 = true.
Proof. unfold Rltb. destruct (Rlt_dec 0 1); [reflexivity|lra]. Qed.
Lemma lt_00 : Rltb 0 0 = false.
Proof. unfold Rltb. destruct (Rlt_dec 0 0); [lra|reflexivity]. Qed.

(** No universal parameter, no sequence function: the Jacobian at one point after a call at
    another differs from the one computed on a fresh matrix, in a column that belongs to another
    frame. *)
Theorem sequence_jacobian_history_refuted :
  exists np univ nF ops o v w J r J1 r1 J' r' n e1 e,
    so_run np univ nF ops = Ok o /\ 0 < nF /\
    length v = joined_size np univ (enabled_after (params_of ops)) nF /\
    length w = length v /\
    (forall x c, length x = length v -> In c (calls o) ->
       good_jacobian np (c_fn c) (seen (frames_from np univ (enabled_after (params_of ops)) (sq_frames (so_fn o)) x) c)) /\
    so_jacobian o v (FMat 0 0 (fun _ _ => 0%R)) (FVec 0 (fun _ => 0%R)) = Ok (J, r, n, e) /\
    so_jacobian o w J r = Ok (J1, r1, n, e1) /\
    so_jacobian o v J1 r1 = Ok (J', r', n, e) /\
    fm_at J 0 0 = 0%R /\ fm_at J' 0 0 = 1%R.
Proof.
  exists 1, (fun _ => false), 2, [AddFrame (Some 0) bound_error; AddFrame (Some 1) square_error]. eexists.
  exists [0%R; 1%R], [1%R; 1%R]. do 9 eexists.
  split; [reflexivity|]. split; [lia|]. split; [reflexivity|]. split; [reflexivity|]. split.
  { intros x c Lx. unfold calls, frame_calls, sequence_calls, active. cbn. rewrite one_not_le_zero. cbn.
    intros [<-|[<-|[]]]; cbn; [apply bound_good|apply square_good]. }
  split; [unfold so_jacobian, jac_size; cbn; rewrite one_not_le_zero; cbn; unfold jac_frame; cbn; rewrite one_not_le_zero; cbn; rewrite lt_00; cbn; reflexivity|].
  split; [unfold so_jacobian, jac_size; cbn; rewrite one_not_le_zero; cbn; unfold jac_frame; cbn; rewrite one_not_le_zero; cbn; rewrite lt_01; cbn; reflexivity|].
  split; [unfold so_jacobian, jac_size; cbn; rewrite one_not_le_zero; cbn; unfold jac_frame; cbn; rewrite one_not_le_zero; cbn; rewrite lt_00; cbn; reflexivity|].
  cbn. split; reflexivity.
Qed.
Print Assumptions sequence_jacobian_history_refuted.

(** A state that meets the hypotheses: three frames of two parameters, the second universal, with
    the motion error on every pair of frames and a square on the first frame. *)
Example sequence_case :
  exists o, so_run 2 (fun i => i =? 1) 3
      [AddSequence None (mps 2 1 [1; 2]%R (fun _ => true)); Params (SetJoined [1; 2; 3; 4]%R)] = Ok o /\
    length [5; 6; 8; 9]%R = joined_size 2 (fun i => i =? 1) (fun _ => true) 3 /\
    length (calls o) = 2 /\
    (forall c, In c (calls o) ->
      let fr := frames_from 2 (fun i => i =? 1) (fun _ => true) (sq_frames (so_fn o)) [5; 6; 8; 9]%R in
      good_gradient 2 (c_fn c) (seen fr c) /\ good_jacobian 2 (c_fn c) (seen fr c)) /\
    clean (FMat 0 0 (fun _ _ => 0%R)) (FVec 0 (fun _ => 0%R)) (rows_asked (calls o)) 4.
Proof.
  eexists. split; [reflexivity|]. split; [reflexivity|].
  unfold calls, frame_calls, sequence_calls, active. cbn -[mps]. 
  change (se_weight (mps 2 1 [1%R; 2%R] (fun _ => true))) with 1%R. rewrite one_not_le_zero. cbn -[mps].
  split; [reflexivity|]. split.
  - intros c [<-|[<-|[]]]; cbn -[mps]; split; try apply mps_good_gradient; try apply mps_good_jacobian; cbn; auto; lra.
  - left. right. cbn. lia.
Qed.
