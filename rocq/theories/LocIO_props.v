(** Theorems about locator files (C123). *)

From Coq Require Import List Arith Ascii NArith ZArith Bool String Lia.
From Verif Require Import Prelude Loops Str_model Str_spec Str_proofs Lines_model Lines_proofs Marker_model Marker_props LocIO_model LocIO_spec.
Import ListNotations.
Local Open Scope outcome_scope.
Local Open Scope list_scope.

(** ** Lines *)

Lemma text_lines : forall ls : list str, List.Forall (fun l => l <> [] /\ (forall c, In c l -> ~ In c [cr; lf])) ls ->
  tokenize (flat_map (fun l => l ++ [lf]) ls) [cr; lf] true = Ok ls.
Proof.
  intros ls H. destruct ls as [|a ls]; [reflexivity|].
  destruct (tokenize_lemma (flat_map (fun l => l ++ [lf]) (a :: ls)) [cr; lf]) as [ps [S1 [_ E]]].
  { inversion H as [|x y [Hx _] Hy]; subst. cbn. destruct a; [congruence|discriminate]. }
  rewrite E. apply (f_equal (@Ok _)).
  assert (S2 : forall l, List.Forall (fun l => l <> [] /\ (forall c, In c l -> ~ In c [cr; lf])) l ->
             splits [cr; lf] (flat_map (fun l => l ++ [lf]) l) (l ++ [[]])).
  { clear. induction l as [|x l IH]; intros H.
    - cbn. constructor. intros c [].
    - inversion H as [|y z [Hy Hc] Hz]; subst. cbn [flat_map app]. rewrite <- app_assoc. cbn [app].
      apply splits_cons; [exact Hc|right; left; reflexivity|exact (IH Hz)]. }
  rewrite (splits_unique _ _ _ _ S1 (S2 _ H)).
  assert (K : forall l : list str, List.Forall (fun l => l <> [] /\ (forall c, In c l -> ~ In c [cr; lf])) l ->
            filter (fun p => negb (Nat.eqb (List.length p) 0)) l = l).
  { clear. intros l H. induction l as [|x l IH]; [reflexivity|]. inversion H as [|y z [Hy Hc] Hz]; subst. cbn [filter].
    destruct x; [congruence|]. cbn [List.length Nat.eqb negb]. rewrite IH by exact Hz. reflexivity. }
  rewrite filter_app, K by exact H. apply app_nil_r.
Qed.

Lemma not_white c : c <> " "%char -> c <> ltab -> c <> nul -> ~ white whites c.
Proof. unfold white, whites, ltab. intros A B C [[D|[D|[]]]|D]; congruence. Qed.

Lemma trim_tabs n (s m : str) a b : s = a :: m -> (exists k, s = k ++ [b]) -> ~ white whites a -> ~ white whites b -> trim whites (tabbed n s) = Ok s.
Proof.
  intros -> [k Ek] Wa Wb. destruct (trim_lemma whites (tabbed n (a :: m))) as [r [E T]]. rewrite E. apply (f_equal (@Ok _)).
  apply (trimmed_unique_lemma whites (tabbed n (a :: m))); [exact T|].
  exists (repeat ltab n), []. rewrite app_nil_r. split; [reflexivity|]. split; [|split; [intros c []|split]].
  - intros c Hc. apply repeat_spec in Hc. subst. left. right. left. reflexivity.
  - intros c r' Er. inversion Er; subst. exact Wa.
  - intros c r' Er. rewrite Ek in Er. apply app_inj_tail in Er. destruct Er as [_ <-]. exact Wb.
Qed.

Lemma fields_known k f : In (k, f) fields -> field_of (quoted (lit k)) = Some f /\ plain (quoted (lit k)).
Proof.
  intros H. assert (A : List.Forall (fun x => field_of (quoted (lit (fst x))) = Some (snd x) /\
     forallb (fun c => negb (Ascii.eqb c ":") && negb (Ascii.eqb c cr) && negb (Ascii.eqb c lf)) (quoted (lit (fst x))) = true) fields).
  { unfold fields. repeat constructor. }
  rewrite List.Forall_forall in A. destruct (A _ H) as [A1 A2]. split; [exact A1|].
  intros c Hc. rewrite forallb_forall in A2. specialize (A2 c Hc). cbn [fst] in A2. rewrite !andb_true_iff, !negb_true_iff in A2.
  destruct A2 as [[A2 A3] A4]. apply Ascii.eqb_neq in A2, A3, A4. repeat split; assumption.
Qed.

Lemma split_entry k v : plain k -> plain v -> k <> [] -> v <> [] -> tokenize (k ++ ":"%char :: v) [":"%char] true = Ok [k; v].
Proof.
  intros Pk Pv Nk Nv. destruct (tokenize_lemma (k ++ ":"%char :: v) [":"%char]) as [ps [S1 [_ E]]].
  { destruct k; discriminate. }
  rewrite E. apply (f_equal (@Ok _)).
  rewrite (splits_unique _ _ _ [k; v] S1).
  - cbn [filter]. destruct k; [congruence|]. destruct v; [congruence|]. reflexivity.
  - apply splits_cons; [|left; reflexivity|constructor]; intros c Hc [D|[]]; [apply Pk in Hc|apply Pv in Hc]; destruct Hc; congruence.
Qed.

Section Body.
Context {F T : Type} (e : env F T) (joints : list (str * T)).

Lemma body_entry k f v v' c rest g : In (k, f) fields -> v = v' ++ [c] -> ~ white whites c -> plain v ->
  loc_body e joints (entry_line k v :: rest) g = (let* g' := set_field e joints f v g in loc_body e joints rest g').
Proof.
  intros K -> W P. cbn [loc_body]. unfold entry_line.
  rewrite (trim_tabs 3 (quoted (lit k) ++ ":"%char :: v' ++ [c]) ((lit k ++ [quote]) ++ ":"%char :: v' ++ [c]) quote c);
    [|reflexivity| |apply not_white; discriminate|exact W].
  2:{ exists (quoted (lit k) ++ ":"%char :: v'). rewrite <- app_assoc. reflexivity. }
  cbn [obind]. destruct (fields_known k f K) as [K1 K2].
  change (quoted (lit k) ++ ":"%char :: v' ++ [c]) with (quote :: (lit k ++ [quote]) ++ ":"%char :: v' ++ [c]) at 1. cbv iota.
  change (Ascii.eqb quote "}") with false. change (Ascii.eqb quote "/") with false. cbv iota.
  rewrite split_entry; [|exact K2|exact P|discriminate|destruct v'; discriminate]. cbn [obind]. rewrite K1. reflexivity.
Qed.

Lemma body_close n s rest g : s = lit "}" \/ s = lit "}," -> loc_body e joints (tabbed n s :: rest) g = Ok (g, rest).
Proof.
  intros H. cbn [loc_body].
  rewrite (trim_tabs n s (tl s) "}"%char (last s "}"%char)); destruct H as [-> | ->]; try reflexivity;
    try (apply not_white; discriminate); try (exists []; reflexivity); exists ["}"%char]; reflexivity.
Qed.
End Body.

Lemma last_quote_app a b pos best :
  last_quote (a ++ b) pos best = last_quote b (pos + List.length a) (last_quote a pos best).
Proof.
  revert pos best. induction a as [|x a IH]; intros pos best; cbn [app last_quote List.length]; [rewrite Nat.add_0_r; reflexivity|].
  rewrite IH. f_equal. lia.
Qed.
Lemma between_quoted s t : (forall c, In c t -> c <> quote) -> between (quoted s ++ t) = s.
Proof.
  intros H. unfold between, quoted. cbn [app]. unfold find_first_of. cbn [skipn find_from existsb]. rewrite Ascii.eqb_refl. cbn [orb].
  cbn [last_quote]. rewrite Ascii.eqb_refl, last_quote_app, last_quote_app. cbn [last_quote]. rewrite Ascii.eqb_refl.
  assert (L : forall pos best, last_quote t pos best = best).
  { induction t as [|x t IH]; intros pos best; [reflexivity|]. cbn [last_quote].
    destruct (Ascii.eqb_spec x quote) as [E|_]; [destruct (H x (or_introl eq_refl) E)|]. apply IH. intros c Hc. apply H. right. exact Hc. }
  rewrite L. destruct (Nat.eqb_spec 0 (1 + List.length s)) as [D|_]; [lia|]. cbn [Nat.add skipn].
  rewrite <- app_assoc. replace (S (List.length s) - 1) with (List.length s) by lia. apply firstn_app_exact.
Qed.

Lemma joint_named_first {T} (joints : list (str * T)) : forall p j b, nth_error joints p = Some j ->
  (forall k i, k < p -> nth_error joints k = Some i -> fst i <> fst j) -> joint_named (fst j) joints b = Some (b + N.of_nat p)%N.
Proof.
  induction joints as [|x r IH]; intros p j b E H; [destruct p; discriminate|].
  cbn [joint_named]. destruct p as [|p].
  - cbn in E. injection E as ->. destruct (s_eqb_spec (fst j) (fst j)); [|congruence]. rewrite N.add_0_r. reflexivity.
  - destruct (s_eqb_spec (fst x) (fst j)) as [D|_]; [destruct (H 0 x ltac:(lia) eq_refl D)|].
    rewrite (IH p j (b + 1)%N E); [f_equal; lia|]. intros k i Hk Ei. apply (H (S k) i); [lia|exact Ei].
Qed.

Lemma plain_app a b : plain a -> plain b -> plain (a ++ b).
Proof. intros A B c Hc. apply in_app_or in Hc. destruct Hc; [apply A|apply B]; assumption. Qed.
Lemma plain_comma : plain [","%char].
Proof. intros c [<-|[]]. repeat split; discriminate. Qed.
Lemma plain_quoted s : plain s -> plain (quoted s).
Proof.
  intros H c [<-|Hc]; [repeat split; discriminate|]. apply in_app_or in Hc. destruct Hc as [Hc|[<-|[]]]; [apply H; exact Hc|repeat split; discriminate].
Qed.

(** ** One locator *)

Section Block.
Context {F T : Type} (e : env F T) (good : F -> Prop) (round : F -> F) (joints : list (str * T)).
Hypothesis PR : prints e good round.

Lemma body_float k f x rest g : In (k, f) fields -> good x ->
  loc_body e joints (float_line e k x :: rest) g = (let* g' := set_field e joints f (e_show e x ++ [","%char]) g in loc_body e joints rest g').
Proof.
  intros K G. unfold float_line. apply body_entry with (v' := e_show e x) (c := ","%char); [exact K|reflexivity|apply not_white; discriminate|].
  apply plain_app; [apply (pr_float_plain _ _ _ PR)|apply plain_comma].
Qed.
Lemma body_int k f z rest g : In (k, f) fields ->
  loc_body e joints (int_line e k z :: rest) g = (let* g' := set_field e joints f (e_showz e z ++ [","%char]) g in loc_body e joints rest g').
Proof.
  intros K. unfold int_line. apply body_entry with (v' := e_showz e z) (c := ","%char); [exact K|reflexivity|apply not_white; discriminate|].
  apply plain_app; [apply (pr_int_plain _ _ _ PR)|apply plain_comma].
Qed.
Lemma to_float_ok x : good x -> to_float e (e_show e x ++ [","%char]) = Ok (round x).
Proof. intros G. unfold to_float. rewrite (pr_float _ _ _ PR x G). reflexivity. Qed.
Lemma to_int_ok z : int32 z -> to_int e (e_showz e z ++ [","%char]) = Ok z.
Proof. intros G. unfold to_int. rewrite (pr_int _ _ _ PR z G). reflexivity. Qed.

Lemma body_limit k a x rest n p o kk w og lw gl : In (k, FLimit a) fields -> (e_is_zero e x = false -> good x) ->
  loc_body e joints (limit_line e k x ++ rest) (Rg (Loc n p o kk w og lw) gl) =
  loc_body e joints rest (Rg (Loc n p o kk w og (if e_is_zero e x then lw else set3 a (round x) lw)) gl).
Proof.
  intros K G. unfold limit_line. destruct (e_is_zero e x); [reflexivity|]. cbn [app].
  rewrite (body_float k (FLimit a)) by (try exact K; apply G; reflexivity). unfold set_field. cbn [g_loc g_global].
  rewrite to_float_ok by (apply G; reflexivity). reflexivity.
Qed.

Lemma block_read space l j p close rest :
  plain (l_name l) -> all3 int32 (l_locked l) -> good (l_weight l) -> all3 (fun x => e_is_zero e x = false -> good x) (l_lweight l) ->
  l_parent l = Some p -> nth_error joints (N.to_nat p) = Some j -> plain (fst j) ->
  (forall k i, k < N.to_nat p -> nth_error joints k = Some i -> fst i <> fst j) ->
  all3 good (match space with SLocal => l_offset l | SGlobal => e_world e (snd j) (l_offset l) end) ->
  close = lit "}" \/ close = lit "}," ->
  exists l' block g, loc_block e space j l close = tabbed 2 (lit "{") :: block /\ block <> [] /\
    loc_body e joints (block ++ rest) (Rg (loc_new e) (None, None, None)) = Ok (g, rest) /\ loc_finish e joints g = Ok (Some l') /\
    reloaded e round space joints l l'.
Proof.
  destruct l as [nm pa [[ox oy] oz] [[kx ky] kz] w og [[lx ly] lz]]. cbn [l_name l_locked l_weight l_lweight l_parent l_offset].
  intros Pn [Kx [Ky Kz]] Gw [Lx [Ly Lz]] -> J Pj First Gs Hc.
  unfold loc_block. cbn [l_name l_locked l_weight l_lweight l_parent l_offset].
  destruct (e_world e (snd j) (ox, oy, oz)) as [[gx gy] gz] eqn:EG.
  set (lim := fun x => if e_is_zero e x then e_zero e else round x).
  set (o' := match space with SLocal => (round ox, round oy, round oz) | SGlobal => e_local e (snd j) (round gx, round gy, round gz) end).
  eexists (Loc nm (Some p) o' (kx, ky, kz) (round w) o' (lim lx, lim ly, lim lz)), _,
    (Rg (Loc nm (Some p) (match space with SLocal => (round ox, round oy, round oz) | SGlobal => (e_zero e, e_zero e, e_zero e) end) (kx, ky, kz) (round w)
           (e_zero e, e_zero e, e_zero e) (lim lx, lim ly, lim lz))
        (match space with SLocal => (None, None, None) | SGlobal => (Some (round gx), Some (round gy), Some (round gz)) end)).
  split; [cbn [app]; reflexivity|]. split; [discriminate|].
  assert (NP : joint_named (fst j) joints 0 = Some p).
  { rewrite (joint_named_first joints (N.to_nat p) j 0 J First), N2Nat.id. reflexivity. }
  assert (Tail : forall g n o gl rest, g = Rg (Loc n None o (0, 0, 0)%Z (e_one e) (e_zero e, e_zero e, e_zero e) (e_zero e, e_zero e, e_zero e)) gl ->
    loc_body e joints ([int_line e "lockX" kx; int_line e "lockY" ky; int_line e "lockZ" kz; float_line e "weight" w] ++
      limit_line e "limitWeightX" lx ++ limit_line e "limitWeightY" ly ++ limit_line e "limitWeightZ" lz ++
      [entry_line "parentName" (quoted (fst j)); tabbed 2 close] ++ rest) g =
    Ok (Rg (Loc n (Some p) o (kx, ky, kz) (round w) (e_zero e, e_zero e, e_zero e) (lim lx, lim ly, lim lz)) gl, rest)).
  { intros g n o gl rest0 ->. cbn [app].
    rewrite (body_int "lockX" (FLock AX)) by (cbn; tauto). unfold set_field at 1. cbn [g_loc g_global]. rewrite to_int_ok by exact Kx. cbn [obind set3].
    rewrite (body_int "lockY" (FLock AY)) by (cbn; tauto). unfold set_field at 1. cbn [g_loc g_global]. rewrite to_int_ok by exact Ky. cbn [obind set3].
    rewrite (body_int "lockZ" (FLock AZ)) by (cbn; tauto). unfold set_field at 1. cbn [g_loc g_global]. rewrite to_int_ok by exact Kz. cbn [obind set3].
    rewrite (body_float "weight" FWeight) by (try exact Gw; cbn; tauto). unfold set_field at 1. cbn [g_loc g_global]. rewrite to_float_ok by exact Gw. cbn [obind].
    rewrite (body_limit "limitWeightX" AX) by (try exact Lx; cbn; tauto).
    rewrite (body_limit "limitWeightY" AY) by (try exact Ly; cbn; tauto).
    rewrite (body_limit "limitWeightZ" AZ) by (try exact Lz; cbn; tauto).
    rewrite (body_entry e joints "parentName" FParentName (quoted (fst j)) (quote :: fst j) quote);
      [|cbn; tauto|reflexivity|apply not_white; discriminate|apply plain_quoted; exact Pj].
    unfold set_field. cbn [g_loc g_global obind].
    rewrite <- (app_nil_r (quoted (fst j))), between_quoted by (intros c []). rewrite NP.
    rewrite (body_close e joints 2 close) by exact Hc. unfold lim.
    destruct (e_is_zero e lx), (e_is_zero e ly), (e_is_zero e lz); reflexivity. }
  split; [|split].
  - cbn [app]. rewrite (body_entry e joints "name" FName (quoted nm ++ [","%char]) (quoted nm) ","%char);
      [|cbn; tauto|reflexivity|apply not_white; discriminate|apply plain_app; [apply plain_quoted; exact Pn|apply plain_comma]].
    unfold set_field at 1, loc_new. cbn [g_loc g_global obind]. rewrite between_quoted by (intros c [<-|[]]; discriminate).
    destruct space; rewrite <- ?app_assoc; cbn [app].
    + destruct Gs as [Gx [Gy Gz]].
      rewrite (body_float "offsetX" (FOffset AX)) by (try exact Gx; cbn; tauto). unfold set_field at 1. cbn [g_loc g_global]. rewrite to_float_ok by exact Gx. cbn [obind set3].
      rewrite (body_float "offsetY" (FOffset AY)) by (try exact Gy; cbn; tauto). unfold set_field at 1. cbn [g_loc g_global]. rewrite to_float_ok by exact Gy. cbn [obind set3].
      rewrite (body_float "offsetZ" (FOffset AZ)) by (try exact Gz; cbn; tauto). unfold set_field at 1. cbn [g_loc g_global]. rewrite to_float_ok by exact Gz. cbn [obind set3].
      etransitivity; [|apply (Tail _ nm (round ox, round oy, round oz) (None, None, None) rest eq_refl)].
      cbn [app]. rewrite <- ?app_assoc. cbn [app]. reflexivity.
    + destruct Gs as [Gx [Gy Gz]].
      rewrite (body_float "globalX" (FGlobal AX)) by (try exact Gx; cbn; tauto). unfold set_field at 1. cbn [g_loc g_global]. rewrite to_float_ok by exact Gx. cbn [obind set3].
      rewrite (body_float "globalY" (FGlobal AY)) by (try exact Gy; cbn; tauto). unfold set_field at 1. cbn [g_loc g_global]. rewrite to_float_ok by exact Gy. cbn [obind set3].
      rewrite (body_float "globalZ" (FGlobal AZ)) by (try exact Gz; cbn; tauto). unfold set_field at 1. cbn [g_loc g_global]. rewrite to_float_ok by exact Gz. cbn [obind set3].
      etransitivity; [|apply (Tail _ nm (e_zero e, e_zero e, e_zero e) (Some (round gx), Some (round gy), Some (round gz)) rest eq_refl)].
      cbn [app]. rewrite <- ?app_assoc. cbn [app]. reflexivity.
  - unfold loc_finish. cbn [g_loc g_global]. unfold o'. destruct space; [reflexivity|]. rewrite (rd_some _ _ _ J). reflexivity.
  - unfold reloaded. cbn [l_name l_locked l_weight l_lweight l_parent l_offset l_origin].
    do 5 (split; [reflexivity|]). split; [reflexivity|].
    intros j' [p' [E1 E2]]. cbn [l_parent] in E1. injection E1 as <-. rewrite J in E2. injection E2 as <-.
    unfold o'. rewrite EG. destruct space; reflexivity.
Qed.

Definition clean (l : str) : Prop := l <> [] /\ forall c, In c l -> ~ In c [cr; lf].

Lemma clean_tabbed n s : s <> [] -> (forall c, In c s -> ~ In c [cr; lf]) -> clean (tabbed n s).
Proof.
  intros N H. split; unfold tabbed.
  - intros D. apply app_eq_nil in D. destruct D. contradiction.
  - intros c Hc. apply in_app_or in Hc. destruct Hc as [Hc|Hc]; [|apply H; exact Hc]. apply repeat_spec in Hc. subst. intros [D|[D|[]]]; discriminate.
Qed.
Lemma plain_lines s : plain s -> forall c, In c s -> ~ In c [cr; lf].
Proof. intros P c Hc [D|[D|[]]]; apply P in Hc; destruct Hc as [A [B C]]; congruence. Qed.
Lemma clean_entry k f v : In (k, f) fields -> plain v -> clean (entry_line k v).
Proof.
  intros K P. unfold entry_line. apply clean_tabbed; [discriminate|]. destruct (fields_known k f K) as [_ Pk].
  intros c Hc. apply in_app_or in Hc. destruct Hc as [Hc|[<-|Hc]]; [exact (plain_lines _ Pk c Hc)|intros [D|[D|[]]]; discriminate|exact (plain_lines _ P c Hc)].
Qed.
Lemma clean_lit n s : lit s <> [] -> forallb (fun c => negb (Ascii.eqb c cr) && negb (Ascii.eqb c lf)) (lit s) = true -> clean (tabbed n (lit s)).
Proof.
  intros N H. apply clean_tabbed; [exact N|]. intros c Hc. rewrite forallb_forall in H. specialize (H c Hc).
  rewrite andb_true_iff, !negb_true_iff in H. destruct H as [A B]. apply Ascii.eqb_neq in A, B. intros [D|[D|[]]]; congruence.
Qed.

Lemma clean_float k f x : In (k, f) fields -> clean (float_line e k x).
Proof. intros K. apply (clean_entry _ f); [exact K|]. apply plain_app; [apply (pr_float_plain _ _ _ PR)|apply plain_comma]. Qed.
Lemma clean_int k f x : In (k, f) fields -> clean (int_line e k x).
Proof. intros K. apply (clean_entry _ f); [exact K|]. apply plain_app; [apply (pr_int_plain _ _ _ PR)|apply plain_comma]. Qed.
Lemma clean_limit k f x : In (k, f) fields -> List.Forall clean (limit_line e k x).
Proof. intros K. unfold limit_line. destruct (e_is_zero e x); constructor; [apply (clean_float _ f); exact K|constructor]. Qed.

Lemma block_clean space j l close : plain (l_name l) -> plain (fst j) -> close = lit "}" \/ close = lit "}," -> List.Forall clean (loc_block e space j l close).
Proof.
  destruct l as [nm pa [[ox oy] oz] [[kx ky] kz] w og [[lx ly] lz]]. cbn [l_name]. intros Pn Pj Hc.
  unfold loc_block. cbn [l_name l_locked l_weight l_lweight l_parent l_offset].
  destruct (e_world e (snd j) (ox, oy, oz)) as [[gx gy] gz].
  apply Forall_app. split.
  { constructor; [apply clean_lit; [discriminate|reflexivity]|]. constructor; [|constructor].
    apply (clean_entry _ FName); [cbn; tauto|]. apply plain_app; [apply plain_quoted; exact Pn|apply plain_comma]. }
  apply Forall_app. split.
  { destruct space; repeat constructor; try (eapply clean_float; cbn; tauto). }
  apply Forall_app. split.
  { constructor; [eapply clean_int; cbn; tauto|]. constructor; [eapply clean_int; cbn; tauto|]. constructor; [eapply clean_int; cbn; tauto|].
    constructor; [eapply clean_float; cbn; tauto|constructor]. }
  apply Forall_app. split; [eapply clean_limit; cbn; tauto|].
  apply Forall_app. split; [eapply clean_limit; cbn; tauto|].
  apply Forall_app. split; [eapply clean_limit; cbn; tauto|].
  constructor; [apply (clean_entry _ FParentName); [cbn; tauto|apply plain_quoted; exact Pj]|].
  constructor; [|constructor]. destruct Hc as [-> | ->]; apply clean_lit; try discriminate; reflexivity.
Qed.

Lemma blocks_read space : forall ls, List.Forall (savable e good space joints) ls ->
  exists blocks ls', loc_blocks e space joints ls = Ok blocks /\ List.Forall clean blocks /\ Forall2 (reloaded e round space joints) ls ls' /\
    forall fuel, List.length (blocks ++ [tabbed 1 (lit "]"); lit "}"]) <= fuel ->
      loc_lines fuel e joints (blocks ++ [tabbed 1 (lit "]"); lit "}"]) = Ok ls'.
Proof.
  intros ls H. induction H as [|l ls S _ IH].
  - exists [], []. split; [reflexivity|]. split; [constructor|]. split; [constructor|]. intros fuel Hf. cbn in Hf.
    destruct fuel as [|[|[|fuel]]]; [lia|lia|reflexivity|reflexivity].
  - destruct IH as [blocks [ls' [E1 [C1 [R1 L1]]]]]. destruct S as [Pn [K [W [LW [p [j [Ep [Ej [Pj [First G]]]]]]]]]].
    set (close := match ls with [] => lit "}" | _ => lit "}," end).
    assert (Hc : close = lit "}" \/ close = lit "},") by (unfold close; destruct ls; tauto).
    destruct (block_read space l j p close (blocks ++ [tabbed 1 (lit "]"); lit "}"]) Pn K W LW Ep Ej Pj First G Hc) as [l' [block [g [B1 [B2 [B3 [B4 B5]]]]]]].
    exists (loc_block e space j l close ++ blocks), (l' :: ls').
    split; [cbn [loc_blocks]; rewrite Ep, (rd_some _ _ _ Ej); cbn [obind]; rewrite E1; reflexivity|].
    split; [apply Forall_app; split; [apply block_clean; assumption|exact C1]|].
    split; [constructor; assumption|].
    intros fuel Hf. rewrite B1 in Hf |- *. cbn [app List.length] in Hf. rewrite <- app_assoc in Hf |- *. rewrite app_length in Hf.
    destruct fuel as [|fuel]; [lia|]. cbn [app loc_lines]. change (trim whites (tabbed 2 (lit "{"))) with (Ok ["{"%char]). cbn [obind].
    change (s_eqb ["{"%char] ["{"%char]) with true. cbv iota.
    destruct (block ++ blocks ++ [tabbed 1 (lit "]"); lit "}"]) as [|b0 br] eqn:EB; [destruct block; [congruence|discriminate]|].
    rewrite B3. cbn [obind fst snd]. rewrite B4. cbn [obind]. rewrite L1; [reflexivity|]. lia.
Qed.
End Block.

(** ** Names *)

Lemma first_duplicate_none names : forall seen, NoDup (seen ++ names) -> first_duplicate seen names = [].
Proof.
  induction names as [|n r IH]; intros seen N; [reflexivity|]. cbn [first_duplicate].
  destruct (existsb (s_eqb n) seen) eqn:E.
  - apply existsb_exists in E. destruct E as [x [Hx Ex]]. destruct (s_eqb_spec n x) as [<-|]; [|discriminate].
    apply NoDup_remove_2 in N. destruct N. apply in_or_app. left. exact Hx.
  - apply IH. cbn [app]. constructor; [apply NoDup_remove_2 in N; exact N|apply NoDup_remove_1 in N; exact N].
Qed.
Lemma first_duplicate_distinct names : forall seen, NoDup seen -> first_duplicate seen names = [] ->
  count_occ (list_eq_dec ascii_dec) (seen ++ names) [] <= 1 -> NoDup (seen ++ names).
Proof.
  induction names as [|n r IH]; intros seen N E C; [rewrite app_nil_r; exact N|]. cbn [first_duplicate] in E.
  destruct (existsb (s_eqb n) seen) eqn:X.
  - subst n. apply existsb_exists in X. destruct X as [x [Hx Ex]]. destruct (s_eqb_spec [] x) as [<-|]; [|discriminate].
    rewrite count_occ_app, count_occ_cons_eq in C by reflexivity. apply (count_occ_In (list_eq_dec ascii_dec)) in Hx. lia.
  - assert (Hn : ~ In n seen).
    { intros Hn. assert (D : existsb (s_eqb n) seen = true); [|congruence]. apply existsb_exists. exists n. split; [exact Hn|]. destruct (s_eqb_spec n n); congruence. }
    assert (P : NoDup ((n :: seen) ++ r)).
    { apply IH; [constructor; assumption|exact E|]. revert C. cbn [app]. rewrite !count_occ_app. cbn [count_occ]. rewrite count_occ_app.
      destruct (list_eq_dec ascii_dec n []); lia. }
    apply NoDup_cons_iff in P. destruct P as [P1 P2]. apply NoDup_Add with (a := n) (l := seen ++ r); [apply Add_app|split; assumption].
Qed.

(** C123. Locators on joints, with distinct names, are read back from the file they are saved to, in either space: the same name, joint and locks, and the numbers
    as printed. *)
Theorem saved_locators_load : forall (F T : Type) (e : env F T) good round space joints ls,
  prints e good round -> List.Forall (savable e good space joints) ls -> NoDup (map l_name ls) ->
  exists text ls', save_locators e space joints ls = Ok text /\ load_locators e joints text = Ok ls' /\ Forall2 (reloaded e round space joints) ls ls'.
Proof.
  intros F T e good round space joints ls PR H N.
  destruct (blocks_read e good round joints PR space ls H) as [blocks [ls' [E [C [R L]]]]].
  unfold save_locators. rewrite E. cbn [obind]. eexists _, ls'. split; [reflexivity|]. split; [|exact R].
  unfold load_locators. rewrite text_lines.
  - cbn [obind app]. rewrite !app_length. cbn [List.length]. rewrite app_length. cbn [List.length].
    destruct (Nat.ltb_spec (S (S (List.length blocks + 2))) 4); [lia|].
    change (trim whites (tabbed 1 (quoted (lit "locators") ++ lit ":["))) with (Ok (quoted (lit "locators") ++ lit ":[")). cbn [obind].
    change (s_eqb (lit "{") ["{"%char]) with true. change (contains _ _) with true. cbn [negb orb].
    rewrite L by (rewrite app_length; cbn; lia). cbn [obind].
    replace (map l_name ls') with (map l_name ls).
    + rewrite first_duplicate_none by exact N. reflexivity.
    + clear - R. induction R as [|a b x y [Hn _] _ IH]; [reflexivity|]. cbn. rewrite Hn, IH. reflexivity.
  - repeat (apply List.Forall_cons; [split; [discriminate|]|]); [| |apply Forall_app; split; [exact C|]].
    + intros c [<-|[]] [D|[D|[]]]; discriminate.
    + apply (clean_lit 1 (String (ascii_of_nat 34) ("locators" ++ String (ascii_of_nat 34) ":["))); [discriminate|reflexivity].
    + constructor; [apply clean_lit; [discriminate|reflexivity]|]. constructor; [|constructor]. split; [discriminate|]. intros c [<-|[]] [D|[D|[]]]; discriminate.
Qed.
Print Assumptions saved_locators_load.

(** ** Any text *)

Lemma body_rest {F T} (e : env F T) joints : forall lines g g' rest, loc_body e joints lines g = Ok (g', rest) -> List.length rest <= List.length lines.
Proof.
  induction lines as [|line lines IH]; intros g g' rest E; cbn [loc_body] in E; [injection E as _ <-; cbn; lia|].
  destruct (trim whites line) as [c| | | |]; cbn [obind] in E; try discriminate. destruct c as [|ch c]; [discriminate|].
  destruct (Ascii.eqb ch "}"); [injection E as _ <-; cbn; lia|].
  destruct (Ascii.eqb ch "/"); [apply IH in E; cbn; lia|].
  destruct (tokenize _ _ _) as [ts| | | |]; cbn [obind] in E; try discriminate.
  destruct ts as [|k [|v [|x y]]]; try (apply IH in E; cbn; lia).
  destruct (field_of k); [|apply IH in E; cbn; lia]. destruct (set_field _ _ _ _ _) as [g1| | | |]; cbn [obind] in E; try discriminate. apply IH in E. cbn. lia.
Qed.

Lemma set_field_fuel {F T} (e : env F T) joints f v g : set_field e joints f v g <> OutOfFuel.
Proof.
  unfold set_field. destruct (g_loc g). destruct f; unfold to_int, to_float; try destruct (e_stoi e v); try destruct (e_stof e v); cbn [obind]; discriminate.
Qed.
Lemma trim_fuel w s : trim w s <> OutOfFuel.
Proof. destruct (trim_lemma w s) as [r [E _]]. rewrite E. discriminate. Qed.
Lemma tokenize_fuel s ds : tokenize s ds true <> OutOfFuel.
Proof. destruct s as [|c s]; [discriminate|]. destruct (tokenize_lemma (c :: s) ds) as [ps [_ [_ E]]]; [discriminate|]. rewrite E. discriminate. Qed.
Lemma body_fuel {F T} (e : env F T) joints : forall lines g, loc_body e joints lines g <> OutOfFuel.
Proof.
  induction lines as [|line lines IH]; intros g; cbn [loc_body]; [discriminate|].
  pose proof (trim_fuel whites line) as Tf. destruct (trim whites line) as [c| | | |]; cbn [obind]; try congruence. destruct c as [|ch c]; [discriminate|].
  destruct (Ascii.eqb ch "}"); [discriminate|]. destruct (Ascii.eqb ch "/"); [apply IH|].
  pose proof (tokenize_fuel (ch :: c) [":"%char]) as Kf. destruct (tokenize _ _ _) as [ts| | | |]; cbn [obind]; try congruence.
  destruct ts as [|k [|v [|x y]]]; try apply IH. destruct (field_of k) as [f|]; [|apply IH].
  pose proof (set_field_fuel e joints f v g) as Sf. destruct (set_field _ _ _ _ _) as [g1| | | |]; cbn [obind]; first [apply IH | congruence].
Qed.
Lemma finish_fuel {F T} (e : env F T) joints g : loc_finish e joints g <> OutOfFuel.
Proof.
  unfold loc_finish. destruct (g_loc g) as [n [p|] o k w og lw]; [|discriminate].
  destruct (g_global g) as [[[?|] [?|]] [?|]]; cbn [obind]; try discriminate. unfold rd. destruct (nth_error _ _); cbn [obind]; discriminate.
Qed.
Lemma lines_fuel {F T} (e : env F T) joints : forall fuel lines, List.length lines <= fuel -> loc_lines fuel e joints lines <> OutOfFuel.
Proof.
  induction fuel as [|fuel IH]; intros lines L; destruct lines as [|line lines]; cbn [loc_lines]; try discriminate; cbn in L; [lia|].
  pose proof (trim_fuel whites line) as Tf. destruct (trim whites line) as [c| | | |]; cbn [obind]; try congruence.
  destruct (s_eqb c ["{"%char]); [|apply IH; lia]. destruct lines as [|l0 lr] eqn:El; [discriminate|]. rewrite <- El in *. clear El.
  pose proof (body_fuel e joints lines (Rg (loc_new e) (None, None, None))) as Bf.
  destruct (loc_body _ _ _ _) as [[g rest]| | | |] eqn:Eb; cbn [obind fst snd]; try congruence. apply body_rest in Eb.
  pose proof (finish_fuel e joints g) as Ff. destruct (loc_finish _ _ _) as [o| | | |]; cbn [obind]; try congruence.
  specialize (IH rest ltac:(lia)). destruct (loc_lines _ _ _ _) as [r| | | |]; cbn [obind]; try congruence.
Qed.

Lemma lines_valid {F T} (e : env F T) joints : forall fuel lines ls, loc_lines fuel e joints lines = Ok ls ->
  List.Forall (fun l => l_parent l <> None /\ l_origin l = l_offset l) ls.
Proof.
  induction fuel as [|fuel IH]; intros lines ls E; destruct lines as [|line lines]; cbn [loc_lines] in E; try discriminate; try (injection E as <-; constructor).
  destruct (trim whites line) as [c| | | |]; cbn [obind] in E; try discriminate.
  destruct (s_eqb c ["{"%char]); [|apply IH in E; exact E]. destruct lines as [|l0 lr] eqn:El; [discriminate|]. rewrite <- El in *. clear El.
  destruct (loc_body _ _ _ _) as [[g rest]| | | |]; cbn [obind fst snd] in E; try discriminate.
  destruct (loc_finish e joints g) as [o| | | |] eqn:Ef; cbn [obind] in E; try discriminate.
  destruct (loc_lines fuel e joints rest) as [r| | | |] eqn:Er; cbn [obind] in E; try discriminate. apply IH in Er.
  destruct o as [l|]; injection E as <-; [constructor; [|exact Er]|exact Er].
  unfold loc_finish in Ef. destruct (g_loc g) as [n [p|] o k w og lw]; [|discriminate].
  match type of Ef with obind ?x _ = _ => destruct x end; cbn [obind] in Ef; try discriminate. injection Ef as <-. split; [discriminate|reflexivity].
Qed.

(** C123. Whatever the text is, loading it ends, and every locator that it gives has a parent and is where its limit is; unless two names are empty, no two names are
    the same. *)
Theorem loaded_locators_have_parents : forall (F T : Type) (e : env F T) joints text,
  load_locators e joints text <> OutOfFuel /\
  forall ls, load_locators e joints text = Ok ls ->
    List.Forall (fun l => l_parent l <> None /\ l_origin l = l_offset l) ls /\
    (count_occ (list_eq_dec ascii_dec) (map l_name ls) [] <= 1 -> NoDup (map l_name ls)).
Proof.
  intros F T e joints text. unfold load_locators.
  pose proof (tokenize_fuel text [cr; lf]) as Kf. destruct (tokenize text [cr; lf] true) as [lines| | | |]; cbn [obind]; try (split; [congruence|discriminate]).
  destruct lines as [|l0 [|l1 rest]]; try (split; [discriminate|intros ls E; injection E as <-; split; [constructor|intros _; constructor]]).
  destruct (Nat.ltb _ _); [split; [discriminate|intros ls E; injection E as <-; split; [constructor|intros _; constructor]]|].
  pose proof (trim_fuel whites l1) as Tf. destruct (trim whites l1) as [t1| | | |]; cbn [obind]; try (split; [congruence|discriminate]).
  destruct (_ || _); [split; [discriminate|intros ls E; injection E as <-; split; [constructor|intros _; constructor]]|].
  pose proof (lines_fuel e joints (List.length rest) rest (le_n _)) as Lf.
  destruct (loc_lines _ _ _ _) as [res| | | |] eqn:Er; cbn [obind]; try (split; [congruence|discriminate]).
  destruct (first_duplicate [] (map l_name res)) eqn:Ed; [|split; discriminate]. split; [discriminate|].
  intros ls E. injection E as <-. split; [exact (lines_valid e joints _ _ _ Er)|]. intros C.
  apply (first_duplicate_distinct (map l_name res) []); [constructor|exact Ed|exact C].
Qed.
Print Assumptions loaded_locators_have_parents.

(** ** Examples *)

Lemma read_ones_repeat r : forall n b, read_ones (repeat "1"%char n ++ "0"%char :: r) b = Some (b + Z.of_nat n)%Z.
Proof.
  induction n as [|n IH]; intros b; cbn [repeat app read_ones].
  - change (Ascii.eqb "0" "1") with false. cbn. rewrite Z.add_0_r. reflexivity.
  - change (Ascii.eqb "1" "1") with true. cbv iota. rewrite IH. f_equal. lia.
Qed.
Lemma read_show z r : read_number (show_ones z ++ r) = Some z.
Proof.
  unfold show_ones, read_number. destruct (Z.ltb_spec z 0).
  - cbn [app]. change (Ascii.eqb "-" "-") with true. cbv iota. rewrite <- app_assoc. cbn [app]. rewrite read_ones_repeat. cbn. f_equal. lia.
  - cbn [app]. rewrite <- app_assoc. cbn [app]. pose proof (read_ones_repeat r (Z.to_nat (Z.abs z)) 0) as R.
    destruct (Z.to_nat (Z.abs z)) eqn:E; cbn [repeat app] in *.
    + change (Ascii.eqb "0" "-") with false. cbv iota. rewrite R. f_equal. lia.
    + change (Ascii.eqb "1" "-") with false. cbv iota. rewrite R. f_equal. lia.
Qed.
Example ones_print : prints ones_env (fun _ => True) (fun x => x).
Proof.
  assert (P : forall z, plain (show_ones z)).
  { intros z c Hc. unfold show_ones in Hc. apply in_app_or in Hc. destruct Hc as [Hc|Hc].
    - destruct (z <? 0)%Z; [destruct Hc as [<-|[]]; repeat split; discriminate|destruct Hc].
    - apply in_app_or in Hc. destruct Hc as [Hc|[<-|[]]]; [apply repeat_spec in Hc; subst|]; repeat split; discriminate. }
  constructor.
  - intros x _. apply read_show.
  - exact P.
  - intros z _. apply read_show.
  - exact P.
Qed.

Definition exlo_joints : list (str * (Z * Z * Z)) := [(lit "root", (0, 0, 0)%Z); (lit "hand", (1, 2, 3)%Z)].
Definition exlo_locs : list (loc Z) :=
  [Loc (lit "tip of ""hand""") (Some 1%N) (4, 5, -6)%Z (1, 0, 1)%Z 2%Z (4, 5, -6)%Z (0, 3, 0)%Z;
   Loc [] (Some 0%N) (7, 8, 9)%Z (0, 0, 0)%Z 1%Z (7, 8, 9)%Z (0, 0, 0)%Z].
Example exlo_savable : forall space, List.Forall (savable ones_env (fun _ => True) space exlo_joints) exlo_locs /\ NoDup (map l_name exlo_locs).
Proof.
  intros space. split.
  - assert (P : forall s, forallb (fun c => negb (Ascii.eqb c ":") && negb (Ascii.eqb c cr) && negb (Ascii.eqb c lf)) s = true -> plain s).
    { intros s H c Hc. rewrite forallb_forall in H. specialize (H c Hc). rewrite !andb_true_iff, !negb_true_iff in H.
      destruct H as [[A B] C]. apply Ascii.eqb_neq in A, B, C. repeat split; assumption. }
    assert (G : forall v : Z * Z * Z, all3 (fun _ => True) v) by (intros [[? ?] ?]; repeat split).
    constructor; [|constructor; [|constructor]]; unfold savable; cbn [l_name l_locked l_weight l_lweight l_parent l_offset].
    + split; [apply P; reflexivity|]. split; [unfold all3, int32; lia|]. split; [exact I|]. split; [unfold all3; tauto|].
      exists 1%N, (lit "hand", (1, 2, 3)%Z). split; [reflexivity|]. split; [reflexivity|]. split; [apply P; reflexivity|]. split; [|apply G].
      intros [|k] i Hk E; [|cbn in Hk; lia]. cbn in E. injection E as <-. discriminate.
    + split; [apply P; reflexivity|]. split; [unfold all3, int32; lia|]. split; [exact I|]. split; [unfold all3; tauto|].
      exists 0%N, (lit "root", (0, 0, 0)%Z). split; [reflexivity|]. split; [reflexivity|]. split; [apply P; reflexivity|]. split; [|apply G].
      intros k i Hk. cbn in Hk. lia.
  - repeat constructor; cbn; intuition discriminate.
Qed.
Example exlo_loaded : forall space,
  (let* t := save_locators ones_env space exlo_joints exlo_locs in load_locators ones_env exlo_joints t)%out = Ok exlo_locs.
Proof. intros []; vm_compute; reflexivity. Qed.

(** ** Findings *)

(** C123. The origin of the limit is not saved: a locator that was moved away from it is loaded with the limit where the locator is. *)
Theorem locator_limit_origin_refuted : exists joints (l l' : loc Z) text,
  savable ones_env (fun _ => True) SLocal joints l /\ save_locators ones_env SLocal joints [l] = Ok text /\
  load_locators ones_env joints text = Ok [l'] /\ l_origin l' <> l_origin l.
Proof.
  exists exlo_joints, (Loc (lit "a") (Some 0%N) (1, 0, 0)%Z (0, 0, 0)%Z 1%Z (0, 0, 0)%Z (1, 1, 1)%Z),
    (Loc (lit "a") (Some 0%N) (1, 0, 0)%Z (0, 0, 0)%Z 1%Z (1, 0, 0)%Z (1, 1, 1)%Z).
  eexists. split; [|split; [reflexivity|split; [vm_compute; reflexivity|discriminate]]].
  unfold savable. cbn [l_name l_locked l_weight l_lweight l_parent l_offset].
  split; [intros c [<-|[]]; repeat split; discriminate|]. split; [unfold all3, int32; lia|]. split; [exact I|]. split; [unfold all3; tauto|].
  exists 0%N, (lit "root", (0, 0, 0)%Z). split; [reflexivity|]. split; [reflexivity|]. split; [|split; [intros k i Hk; cbn in Hk; lia|repeat split]].
  intros c Hc. cbn in Hc. repeat destruct Hc as [<-|Hc]; try (repeat split; discriminate). destruct Hc.
Qed.
Print Assumptions locator_limit_origin_refuted.

(** C123. A name with a colon is saved as it is and loaded as "uninitialized"; two such locators make the file one that cannot be loaded. *)
Theorem locator_name_with_colon_refuted : exists joints (a b : loc Z) text a' text2,
  save_locators ones_env SLocal joints [a] = Ok text /\ load_locators ones_env joints text = Ok [a'] /\ l_name a' = lit "uninitialized" /\
  l_name a <> l_name b /\ save_locators ones_env SLocal joints [a; b] = Ok text2 /\ load_locators ones_env joints text2 = Throw.
Proof.
  exists exlo_joints, (Loc (lit "body:a") (Some 0%N) (1, 0, 0)%Z (0, 0, 0)%Z 1%Z (1, 0, 0)%Z (0, 0, 0)%Z),
    (Loc (lit "body:b") (Some 1%N) (1, 0, 0)%Z (0, 0, 0)%Z 1%Z (1, 0, 0)%Z (0, 0, 0)%Z).
  eexists _, _, _. split; [reflexivity|]. split; [vm_compute; reflexivity|]. split; [reflexivity|]. split; [discriminate|]. split; [reflexivity|]. vm_compute. reflexivity.
Qed.
Print Assumptions locator_name_with_colon_refuted.

(** C123. Of two joints with the same name a locator on the second one is loaded on the first. *)
Theorem locator_same_joint_name_refuted : exists joints (l l' : loc Z) text,
  save_locators ones_env SLocal joints [l] = Ok text /\ load_locators ones_env joints text = Ok [l'] /\ l_parent l = Some 1%N /\ l_parent l' = Some 0%N.
Proof.
  exists [(lit "j", (0, 0, 0)%Z); (lit "j", (5, 5, 5)%Z)], (Loc (lit "a") (Some 1%N) (1, 0, 0)%Z (0, 0, 0)%Z 1%Z (1, 0, 0)%Z (0, 0, 0)%Z).
  eexists _, _. split; [reflexivity|]. split; [vm_compute; reflexivity|]. split; reflexivity.
Qed.
Print Assumptions locator_same_joint_name_refuted.

(** C123. A parent that is given as a number is not compared with the number of joints: the locator is loaded on a joint that does not exist, and with a global
    position the state of that joint is read. *)
Theorem locator_parent_number_refuted : exists joints text (l : loc Z) text2,
  load_locators ones_env joints text = Ok [l] /\ (exists p, l_parent l = Some p /\ nth_error joints (N.to_nat p) = None) /\
  load_locators ones_env joints text2 = UB.
Proof.
  exists exlo_joints, (file ["{"; """locators"":["; "{"; """parent"":110"; "}"; "]"; "}"]%string). eexists.
  exists (file ["{"; """locators"":["; "{"; """parent"":110"; """globalX"":10"; """globalY"":10"; """globalZ"":10"; "}"; "]"; "}"]%string).
  split; [vm_compute; reflexivity|]. split; [exists 2%N; split; reflexivity|]. vm_compute. reflexivity.
Qed.
Print Assumptions locator_parent_number_refuted.

(** C123. A line of blanks inside a locator, a lock that is no number, or a global position without all of its coordinates makes the loader use what is not there. *)
Theorem locator_file_undefined_refuted : exists joints t1 t2 t3,
  t1 = file ["{"; """locators"":["; "{"; """parentName"":""hand"""; "  "; "}"; "]"; "}"]%string /\
  t2 = file ["{"; """locators"":["; "{"; """parentName"":""hand"""; """lockX"":true"; "}"; "]"; "}"]%string /\
  t3 = file ["{"; """locators"":["; "{"; """parentName"":""hand"""; """globalX"":110,"; "}"; "]"; "}"]%string /\
  load_locators ones_env joints t1 = UB /\ load_locators ones_env joints t2 = UB /\ load_locators ones_env joints t3 = UB.
Proof. eexists exlo_joints, _, _, _. repeat (split; [reflexivity|]). repeat split; vm_compute; reflexivity. Qed.
Print Assumptions locator_file_undefined_refuted.

(** C123. Two locators without a name hide that others have the same name. *)
Theorem locator_duplicate_names_refuted : exists joints (ls : list (loc Z)) text,
  load_locators ones_env joints text = Ok ls /\ map l_name ls = [[]; []; lit "a"; lit "a"].
Proof.
  pose (l := fun n o => Loc n (Some 0%N) (o, 0, 0)%Z (0, 0, 0)%Z 1%Z (o, 0, 0)%Z (0, 0, 0)%Z).
  exists exlo_joints, [l [] 1%Z; l [] 2%Z; l (lit "a") 3%Z; l (lit "a") 4%Z].
  exists (match save_locators ones_env SLocal exlo_joints [l [] 1%Z; l [] 2%Z; l (lit "a") 3%Z; l (lit "a") 4%Z] with Ok t => t | _ => [] end).
  split; [vm_compute; reflexivity|reflexivity].
Qed.
Print Assumptions locator_duplicate_names_refuted.

(** C123. A file that was cut off may be loaded without an error and without the locator that it ends in; or loading it is undefined. *)
Theorem locator_cut_file_refuted : exists joints (ls : list (loc Z)) text n m,
  save_locators ones_env SLocal joints ls = Ok text /\ List.length ls = 2 /\ n < List.length text /\ m < List.length text /\
  (exists l, load_locators ones_env joints (firstn n text) = Ok [l]) /\ load_locators ones_env joints (firstn m text) = UB.
Proof.
  exists exlo_joints, exlo_locs. eexists. exists 300, 290. split; [reflexivity|]. split; [reflexivity|].
  split; [apply Nat.ltb_lt; vm_compute; reflexivity|]. split; [apply Nat.ltb_lt; vm_compute; reflexivity|].
  split; [eexists; vm_compute; reflexivity|vm_compute; reflexivity].
Qed.
Print Assumptions locator_cut_file_refuted.
