From Coq Require Import Reals List Lra Lia Psatz.
From Verif Require Import GeoModel SeaModel FloModel EnvModel EnvSpec.
Import ListNotations.
Open Scope R_scope.

(** ** Tables *)
Fixpoint climbing (a : R) (l : list (R * R)) : Prop := match l with [] => True | (b, _) :: t => a < b /\ climbing b t end.
Fixpoint rising (c : R) (l : list (R * R)) : Prop := match l with [] => True | (_, d) :: t => c <= d /\ rising d t end.
Definition affine (h k : R) (p : R * R) : R * R := (fst p, h + k * snd p).
Lemma table_affine : forall h k l a c x v, table_from a c l x = Ok v -> table_from a (h + k * c) (map (affine h k) l) x = Ok (h + k * v).
Proof.
  intros h k; induction l as [|[b d] l IH]; intros a c x v; cbn [table_from map affine fst snd]; [discriminate|].
  destruct (Rlt_dec b x); [apply IH|]. destruct (Req_EM_T a b); [discriminate|].
  intro E; inversion E; subst. f_equal. field. lra.
Qed.
Lemma table_affine_throws : forall h k l a c x, table_from a c l x = Throws -> table_from a (h + k * c) (map (affine h k) l) x = Throws.
Proof.
  intros h k; induction l as [|[b d] l IH]; intros a c x; cbn [table_from map affine fst snd]; [reflexivity|].
  destruct (Rlt_dec b x); [apply IH|]. destruct (Req_EM_T a b); discriminate.
Qed.
Definition end_of (a : R) (l : list (R * R)) : R := fst (last l (a, 0)).
Definition top_of (c : R) (l : list (R * R)) : R := snd (last l (0, c)).
Lemma end_cons : forall a b d l, end_of a ((b, d) :: l) = end_of b l.
Proof. intros a b d l; revert a b d; induction l as [|[b' d'] l IH]; intros; [reflexivity|]. rewrite (IH b b' d'). exact (IH a b' d'). Qed.
Lemma top_cons : forall c b d l, top_of c ((b, d) :: l) = top_of d l.
Proof. intros c b d l; revert c b d; induction l as [|[b' d'] l IH]; intros; [reflexivity|]. rewrite (IH d b' d'). exact (IH c b' d'). Qed.
Lemma climbing_end : forall l a, climbing a l -> a <= end_of a l.
Proof. induction l as [|[b d] l IH]; intros a H; [unfold end_of; cbn; lra|]. rewrite end_cons. destruct H as [H H']. specialize (IH _ H'). lra. Qed.
Lemma rising_top : forall l c, rising c l -> c <= top_of c l.
Proof. induction l as [|[b d] l IH]; intros c H; [unfold top_of; cbn; lra|]. rewrite top_cons. destruct H as [H H']. specialize (IH _ H'). lra. Qed.
Lemma table_range : forall l a c x, l <> [] -> climbing a l -> rising c l -> a <= x <= end_of a l ->
  exists v, table_from a c l x = Ok v /\ c <= v <= top_of c l.
Proof.
  induction l as [|[b d] l IH]; intros a c x N H1 H2 H; [congruence|]. rewrite end_cons in H. rewrite top_cons. cbn [table_from].
  destruct H1 as [H1 H1'], H2 as [H2 H2'].
  destruct (Rlt_dec b x) as [L|L].
  - assert (l <> []) as N'. { intro; subst. unfold end_of in H; cbn in H; lra. }
    destruct (IH b d x N' H1' H2') as [v [E ?]]; [lra|]. exists v. split; [exact E|lra].
  - destruct (Req_EM_T a b) as [e|e]; [lra|]. eexists; split; [reflexivity|].
    pose proof (rising_top _ _ H2'). assert (0 <= (x - a) / (b - a) <= 1) as B.
    { split; [apply Rmult_le_pos; [lra|left; apply Rinv_0_lt_compat; lra]|]. apply (Rmult_le_reg_r (b - a)); [lra|]. field_simplify; lra. }
    nra.
Qed.
Lemma table_beyond : forall l a c x, climbing a l -> end_of a l < x -> table_from a c l x = Throws.
Proof.
  induction l as [|[b d] l IH]; intros a c x H1 H; cbn [table_from]; [reflexivity|]. rewrite end_cons in H. destruct H1 as [H1 H1'].
  pose proof (climbing_end _ _ H1'). destruct (Rlt_dec b x); [apply IH; assumption|lra].
Qed.
Lemma table_mono : forall l a c x y v w, climbing a l -> rising c l -> a <= x <= y -> table_from a c l x = Ok v -> table_from a c l y = Ok w -> v <= w.
Proof.
  induction l as [|[b d] l IH]; intros a c x y v w H1 H2 H Ev Ew; cbn [table_from] in Ev, Ew; [discriminate|].
  destruct H1 as [H1 H1'], H2 as [H2 H2'].
  destruct (Rlt_dec b x) as [L|L].
  - destruct (Rlt_dec b y); [|lra]. apply (IH b d x y); try assumption; lra.
  - destruct (Req_EM_T a b); [lra|]. inversion Ev; subst v; clear Ev.
    assert (0 <= (x - a) / (b - a) <= 1) as B.
    { split; [apply Rmult_le_pos; [lra|left; apply Rinv_0_lt_compat; lra]|]. apply (Rmult_le_reg_r (b - a)); [lra|]. field_simplify; lra. }
    destruct (Rlt_dec b y) as [L'|L'].
    + assert (d <= w). { destruct l as [|[b' d'] l']; [discriminate|].
        destruct (Rle_dec y (end_of b ((b', d') :: l'))) as [q|q].
        - destruct (table_range ((b', d') :: l') b d y) as [u [Eu ?]]; [discriminate|assumption|assumption|lra|]. rewrite Eu in Ew. inversion Ew; subst. lra.
        - rewrite (table_beyond _ b d y H1') in Ew by lra. discriminate. }
      nra.
    + inversion Ew; subst w. apply Rplus_le_compat_l. apply Rmult_le_compat_r; [lra|].
      unfold Rdiv. apply Rmult_le_compat_r; [left; apply Rinv_0_lt_compat; lra|lra].
Qed.
(** a node of the table *)
Lemma table_node : forall l a c b d l2, climbing a (l ++ (b, d) :: l2) -> table_from a c (l ++ (b, d) :: l2) b = Ok d.
Proof.
  induction l as [|[b' d'] l IH]; intros a c b d l2 H; cbn [app table_from].
  - destruct H as [H _]. destruct (Rlt_dec b b); [lra|]. destruct (Req_EM_T a b); [lra|]. f_equal. field. lra.
  - destruct H as [H H']. assert (b' < b) as L.
    { clear -H'. revert b' H'. induction l as [|[b2 d2] l IH2]; intros b' H'; [exact (proj1 H')|]. destruct H' as [q H']. specialize (IH2 _ H'). lra. }
    destruct (Rlt_dec b' b); [|lra]. apply IH; assumption.
Qed.

(** ** The rule of twelfths *)
Lemma seconds_minutes : forall t, GetSeconds t = 60 * GetMinutes t.
Proof. intro t. unfold GetSeconds, GetMinutes. field. Qed.
Definition plain (a d : R) : list (R * R) := [(a + 1 * d, 1); (a + 2 * d, 3); (a + 3 * d, 6); (a + 4 * d, 9); (a + 5 * d, 11); (a + 6 * d, 12)].
Lemma plain_climbs : forall a d, 0 < d -> climbing a (plain a d).
Proof. intros a d H. cbn [plain climbing]. repeat split; lra. Qed.
Lemma plain_rises : forall a d, rising 0 (plain a d).
Proof. intros a d. cbn [plain rising]. repeat split; lra. Qed.
Definition step_of (lev : level) (h1 h2 : R) : R := match lev with LOW => 1 | HIGH => - 1 end * (Rabs (h2 - h1) / 12).
Lemma step_agrees : forall lev h1 h2, agrees lev h1 h2 -> step_of lev h1 h2 = (h2 - h1) / 12.
Proof. intros [] h1 h2 H; unfold step_of, agrees in *; unfold Rabs; destruct (Rcase_abs _); lra. Qed.
Lemma inr_small : INR 0 = 0 /\ INR 1 = 1 /\ INR 2 = 2 /\ INR 3 = 3 /\ INR 4 = 4 /\ INR 5 = 5 /\ INR 6 = 6.
Proof. cbn. repeat split; lra. Qed.
Lemma table_shape : forall lev t1 h1 t2 h2, BuildTwelfthRuleTable lev t1 h1 t2 h2 =
  (GetMinutes t1, h1) :: map (affine h1 (step_of lev h1 h2)) (plain (GetMinutes t1) ((GetMinutes t2 - GetMinutes t1) / 6)).
Proof.
  intros. unfold BuildTwelfthRuleTable. cbv zeta. cbn [seq map combine twelfths plain affine fst snd].
  destruct inr_small as (E0 & E1 & E2 & E3 & E4 & E5 & E6). rewrite E0, E1, E2, E3, E4, E5, E6. unfold step_of, affine. cbn [fst snd].
  repeat (apply f_equal2; [f_equal; ring|]). reflexivity.
Qed.
Lemma tidal2_inv : forall t1 h1 l1 t2 h2 l2 td, Tidal2 t1 h1 l1 t2 h2 l2 = Ok td ->
  td = Tidal 0 TWELFTH_RULE l1 t1 h1 t2 h2 (BuildTwelfthRuleTable l1 t1 h1 t2 h2) None /\ GetMinutes t1 < GetMinutes t2.
Proof.
  intros t1 h1 l1 t2 h2 l2 td. unfold Tidal2. destruct (Rle_dec 0 h1), (Rle_dec 0 h2), (level_eqb l1 l2); try discriminate.
  destruct (Rlt_dec _ _) as [L|L]; [|discriminate]. intro E; inversion E; subst. split; [reflexivity|]. rewrite !seconds_minutes in L. lra.
Qed.
Lemma eval_shape : forall lev t1 h1 t2 h2 x, TableEval (BuildTwelfthRuleTable lev t1 h1 t2 h2) x =
  if Rlt_dec x (GetMinutes t1) then Throws
  else table_from (GetMinutes t1) (h1 + step_of lev h1 h2 * 0) (map (affine h1 (step_of lev h1 h2)) (plain (GetMinutes t1) ((GetMinutes t2 - GetMinutes t1) / 6))) x.
Proof.
  intros. rewrite table_shape. cbn [TableEval]. destruct (Rlt_dec x (GetMinutes t1)); [reflexivity|]. f_equal. ring.
Qed.
Lemma plain_node : forall a d i, 0 < d -> (i <= 6)%nat -> table_from a 0 (plain a d) (a + INR i * d) = Ok (12 * covered i).
Proof.
  intros a d i H Hi. pose proof (plain_climbs a d H) as C. destruct inr_small as (E0 & E1 & E2 & E3 & E4 & E5 & E6).
  assert (i = 0 \/ i = 1 \/ i = 2 \/ i = 3 \/ i = 4 \/ i = 5 \/ i = 6)%nat as K by lia. unfold covered, hourly.
  destruct K as [->|[->|[->|[->|[->|[->| ->]]]]]]; cbn [firstn fold_right].
  - rewrite E0. cbn [plain table_from]. destruct (Rlt_dec _ _); [lra|]. destruct (Req_EM_T _ _); [lra|]. f_equal. field. lra.
  - rewrite E1. etransitivity; [exact (table_node [] a 0 _ _ _ C)|]. f_equal. field.
  - rewrite E2. etransitivity; [exact (table_node [_] a 0 _ _ _ C)|]. f_equal. field.
  - rewrite E3. etransitivity; [exact (table_node [_; _] a 0 _ _ _ C)|]. f_equal. field.
  - rewrite E4. etransitivity; [exact (table_node [_; _; _] a 0 _ _ _ C)|]. f_equal. field.
  - rewrite E5. etransitivity; [exact (table_node [_; _; _; _] a 0 _ _ _ C)|]. f_equal. field.
  - rewrite E6. etransitivity; [exact (table_node [_; _; _; _; _] a 0 _ _ _ C)|]. f_equal. field.
Qed.
Lemma plain_end : forall a d, end_of a (plain a d) = a + 6 * d.
Proof. reflexivity. Qed.
Lemma plain_top : forall a d, top_of 0 (plain a d) = 12.
Proof. reflexivity. Qed.
Lemma rule_nodes : forall lev t1 h1 t2 h2 i, GetMinutes t1 < GetMinutes t2 -> (i <= 6)%nat ->
  TableEval (BuildTwelfthRuleTable lev t1 h1 t2 h2) (sixth (GetMinutes t1) (GetMinutes t2) i) = Ok (h1 + 12 * step_of lev h1 h2 * covered i).
Proof.
  intros lev t1 h1 t2 h2 i H Hi. rewrite eval_shape. unfold sixth. set (d := (GetMinutes t2 - GetMinutes t1) / 6). assert (0 < d) by (unfold d; lra).
  destruct (Rlt_dec _ _) as [L|L]. { pose proof (pos_INR i). nra. }
  rewrite (table_affine h1 (step_of lev h1 h2) _ _ 0 _ _ (plain_node (GetMinutes t1) d i H0 Hi)). f_equal. ring.
Qed.
Lemma rule_inside : forall lev t1 h1 t2 h2 x, GetMinutes t1 < GetMinutes t2 -> GetMinutes t1 <= x <= GetMinutes t2 ->
  exists p, 0 <= p <= 12 /\ table_from (GetMinutes t1) 0 (plain (GetMinutes t1) ((GetMinutes t2 - GetMinutes t1) / 6)) x = Ok p /\
            TableEval (BuildTwelfthRuleTable lev t1 h1 t2 h2) x = Ok (h1 + step_of lev h1 h2 * p).
Proof.
  intros lev t1 h1 t2 h2 x H Hx. rewrite eval_shape. set (d := (GetMinutes t2 - GetMinutes t1) / 6). assert (0 < d) by (unfold d; lra).
  destruct (table_range (plain (GetMinutes t1) d) (GetMinutes t1) 0 x) as [p [E B]]; [discriminate|apply plain_climbs; assumption|apply plain_rises|rewrite plain_end; unfold d; lra|].
  rewrite plain_top in B. exists p. split; [exact B|]. split; [exact E|]. destruct (Rlt_dec _ _); [lra|]. apply table_affine; exact E.
Qed.
Lemma rule_outside : forall lev t1 h1 t2 h2 x, GetMinutes t1 < GetMinutes t2 -> x < GetMinutes t1 \/ GetMinutes t2 < x ->
  TableEval (BuildTwelfthRuleTable lev t1 h1 t2 h2) x = Throws.
Proof.
  intros lev t1 h1 t2 h2 x H Hx. rewrite eval_shape. set (d := (GetMinutes t2 - GetMinutes t1) / 6). assert (0 < d) by (unfold d; lra).
  destruct (Rlt_dec _ _); [reflexivity|]. apply table_affine_throws. apply table_beyond; [apply plain_climbs; assumption|]. rewrite plain_end. unfold d. lra.
Qed.
