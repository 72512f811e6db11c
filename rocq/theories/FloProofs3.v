(** Proofs for C73: polar tables. *)
From Coq Require Import Reals List Bool Lra Lia ZArith Permutation.
From Verif Require Import WavModel SeaModel FloModel WavProofs3 GeoModel GeoSpec GeoProofs GeoProofs2 BodyModel BodySpec FloSpec.
Import ListNotations.
Open Scope R_scope.

(** ** increasing lists *)
Lemma inc_tail r l : increasing (r :: l) -> increasing l.
Proof. destruct l; [constructor|]. intros [_ H]. exact H. Qed.
Lemma inc_head r l : increasing (r :: l) -> forall x, In x l -> fst r < fst x.
Proof.
  revert r. induction l as [|y l IH]; intros r H x; [intros []|]. destruct H as [H1 H2]. intros [->|I]; [exact H1|]. apply Rlt_trans with (fst y); [exact H1|]. apply IH; auto.
Qed.
Lemma inc_cons r l : increasing l -> (forall x, In x l -> fst r < fst x) -> increasing (r :: l).
Proof. intros H A. destruct l as [|y l]; [constructor|]. split; [apply A; left; reflexivity|exact H]. Qed.
Lemma inc_app l l' : increasing l -> increasing l' -> (forall x y, In x l -> In y l' -> fst x < fst y) -> increasing (l ++ l').
Proof.
  induction l as [|r l IH]; intros A B C; [exact B|]. cbn. apply inc_cons; [apply IH; [eapply inc_tail; eauto|exact B|intros; apply C; [right|]; auto]|].
  intros x I. apply in_app_or in I. destruct I as [I|I]; [eapply inc_head; eauto|apply C; [left; reflexivity|exact I]].
Qed.
Lemma inc_unique l a c d : increasing l -> In (a, c) l -> In (a, d) l -> c = d.
Proof.
  induction l as [|r l IH]; intros H A B; [destruct A|]. destruct A as [A|A], B as [B|B].
  - congruence.
  - pose proof (inc_head _ _ H _ B) as X. subst r. cbn in X. lra.
  - pose proof (inc_head _ _ H _ A) as X. subst r. cbn in X. lra.
  - apply IH; auto. eapply inc_tail; eauto.
Qed.
(** ** lookup *)
Lemma lerp_left a b c d : a < b -> lerp a a b c d = c.
Proof. intros. unfold lerp, vadd, vscale, vsub. apply vec_eq; cbn [vx vy vz]; field; lra. Qed.
Lemma lerp_right a b c d : a < b -> lerp b a b c d = d.
Proof. intros. unfold lerp, vadd, vscale, vsub. apply vec_eq; cbn [vx vy vz]; field; lra. Qed.
Lemma from_between t : forall a0 c0 a c b d x, increasing ((a0, c0) :: t) -> In (a, c) ((a0, c0) :: t) -> In (b, d) ((a0, c0) :: t) -> a < b ->
  (forall r, In r ((a0, c0) :: t) -> ~ (a < fst r < b)) -> a <= x <= b -> lookup_from a0 c0 t x = Ok (lerp x a b c d).
Proof.
  induction t as [|[b1 d1] t IH]; intros a0 c0 a c b d x INC IA IB L NB X.
  - destruct IA as [E|[]], IB as [E2|[]]. injection E as E _. injection E2 as E2 _. lra.
  - cbn [lookup_from]. pose proof (inc_head _ _ INC) as HD. cbn [fst] in HD. assert (H01 : a0 < b1) by (apply (HD (b1, d1)); left; reflexivity).
    destruct IB as [E|IB]; [injection E as E1 E2; destruct IA as [E'|IA]; [injection E' as E3 _; lra|specialize (HD _ IA); cbn in HD; lra]|].
    assert (BB : b1 <= b). { destruct IB as [E|IB]; [injection E as E _; lra|]. pose proof (inc_head _ _ (inc_tail _ _ INC) _ IB) as Y. cbn in Y. lra. }
    destruct (Rlt_dec b1 x) as [L1|L1].
    + assert (A1 : b1 <= a). { destruct (Rle_lt_dec b1 a) as [|Z]; [assumption|]. exfalso. apply (NB (b1, d1)); [right; left; reflexivity|]. cbn. lra. }
      apply IH; [eapply inc_tail; exact INC| |exact IB|exact L|intros; apply NB; right; auto|exact X].
      destruct IA as [E|IA]; [injection E as E1 E2; lra|exact IA].
    + destruct (Req_EM_T a0 b1) as [Z|_]; [lra|]. f_equal. destruct IA as [E|IA].
      * injection E as E1 E2. subst a0 c0. assert (BE : b = b1). { destruct (Req_EM_T b b1); [assumption|]. exfalso. apply (NB (b1, d1)); [right; left; reflexivity|]. cbn. lra. }
        subst b. assert (d = d1) by (apply (inc_unique _ _ _ _ (inc_tail _ _ INC) IB); left; reflexivity). subst. reflexivity.
      * assert (A1 : b1 <= a). { destruct IA as [E|IA]; [injection E as E _; lra|]. pose proof (inc_head _ _ (inc_tail _ _ INC) _ IA) as Y. cbn in Y. lra. }
        assert (x = b1) by lra. assert (a = b1) by lra. subst x a. assert (c = d1) by (apply (inc_unique _ _ _ _ (inc_tail _ _ INC) IA); left; reflexivity). subst. rewrite lerp_right by lra. rewrite lerp_left by lra. reflexivity.
Qed.
Lemma lookup_between l a c b d x : increasing l -> In (a, c) l -> In (b, d) l -> a < b -> (forall r, In r l -> ~ (a < fst r < b)) -> a <= x <= b -> Lookup l x = Ok (lerp x a b c d).
Proof.
  intros INC IA IB L NB X. destruct l as [|[a0 c0] t]; [destruct IA|]. cbn [Lookup]. destruct (Rlt_dec x a0) as [Z|Z].
  - exfalso. destruct IA as [E|IA]; [injection E as E _; lra|]. pose proof (inc_head _ _ INC _ IA) as Y. cbn in Y. lra.
  - apply from_between; auto.
Qed.
Lemma adjacent_from t : forall a0 c0 x, increasing ((a0, c0) :: t) -> a0 <= x -> (exists r, In r t /\ x <= fst r) ->
  exists a c b d, In (a, c) ((a0, c0) :: t) /\ In (b, d) ((a0, c0) :: t) /\ a < b /\ (forall r, In r ((a0, c0) :: t) -> ~ (a < fst r < b)) /\ a <= x <= b.
Proof.
  induction t as [|[b1 d1] t IH]; intros a0 c0 x INC L [r [I XR]]; [destruct I|]. pose proof (inc_head _ _ INC) as HD. cbn [fst] in HD. assert (H01 : a0 < b1) by (apply (HD (b1, d1)); left; reflexivity).
  destruct (Rle_lt_dec x b1) as [X|X].
  - exists a0, c0, b1, d1. split; [left; reflexivity|]. split; [right; left; reflexivity|]. split; [exact H01|]. split; [|lra]. intros r' [<-|[<-|I']]; cbn; try lra. pose proof (inc_head _ _ (inc_tail _ _ INC) _ I') as Y. cbn in Y. lra.
  - destruct I as [<-|I]; [cbn in XR; lra|]. destruct (IH b1 d1 x (inc_tail _ _ INC) ltac:(lra) (ex_intro _ r (conj I XR))) as (a & c & b & d & A & B & AB & NB & AX).
    exists a, c, b, d. split; [right; exact A|]. split; [right; exact B|]. split; [exact AB|]. split; [|exact AX]. intros r' [<-|I']; [|apply NB; exact I'].
    cbn [fst]. intros Z. assert (Y : b1 <= a). { destruct A as [E|A]; [injection E as E _; lra|]. pose proof (inc_head _ _ (inc_tail _ _ INC) _ A) as Y. cbn in Y. lra. } lra.
Qed.
Lemma adjacent l x lo hi cl ch : increasing l -> In (lo, cl) l -> In (hi, ch) l -> lo <= x <= hi -> lo < hi ->
  exists a c b d, In (a, c) l /\ In (b, d) l /\ a < b /\ (forall r, In r l -> ~ (a < fst r < b)) /\ a <= x <= b.
Proof.
  intros INC I1 I2 X LH. destruct l as [|[a0 c0] t]; [destruct I1|].
  assert (A0 : a0 <= lo). { destruct I1 as [E|I]; [injection E as E _; lra|]. pose proof (inc_head _ _ INC _ I) as Y. cbn in Y. lra. }
  apply adjacent_from; [exact INC|lra|]. exists (hi, ch). split; [|cbn; lra]. destruct I2 as [E|I]; [injection E as E _; lra|exact I].
Qed.
Lemma lookup_knot l a c : increasing l -> (2 <= length l)%nat -> In (a, c) l -> Lookup l a = Ok c.
Proof.
  intros INC LN I. destruct l as [|[a0 c0] [|[b1 d1] t]]; cbn in LN; try lia.
  assert (A0 : a0 <= a). { destruct I as [E|I]; [injection E as E _; lra|]. pose proof (inc_head _ _ INC _ I) as Y. cbn in Y. lra. }
  assert (H01 : a0 < b1) by (apply (inc_head _ _ INC (b1, d1)); left; reflexivity).
  assert (exists r, In r ((b1, d1) :: t) /\ a <= fst r) as EX. { destruct I as [E|I]; [injection E as E _; exists (b1, d1); split; [left; reflexivity|cbn; lra]|exists (a, c); split; [exact I|cbn; lra]]. }
  destruct (adjacent_from _ _ _ a INC A0 EX) as (a' & c' & b & d & A & B & AB & NB & AX). rewrite (lookup_between _ _ _ _ _ a INC A B AB NB AX). f_equal.
  destruct (Req_EM_T a a') as [Z|Z]; [subst a'; rewrite lerp_left by lra; symmetry; eapply inc_unique; eauto|]. destruct (Req_EM_T a b) as [Z2|Z2]; [subst b; rewrite lerp_right by lra; symmetry; eapply inc_unique; eauto|].
  exfalso. apply (NB _ I). cbn. lra.
Qed.
(** ** sorting *)
Lemma insert_perm r l : Permutation (r :: l) (insert_row r l).
Proof. induction l as [|y l IH]; cbn; [reflexivity|]. destruct (Rlt_dec (fst y) (fst r)); [|reflexivity]. rewrite perm_swap. constructor. exact IH. Qed.
Lemma sort_perm l : Permutation l (sort_rows l).
Proof. induction l as [|r l IH]; cbn; [reflexivity|]. rewrite <- insert_perm. constructor. exact IH. Qed.
Lemma insert_inc r l : increasing l -> (forall x, In x l -> fst x <> fst r) -> increasing (insert_row r l).
Proof.
  induction l as [|y l IH]; intros H N; cbn; [constructor|]. destruct (Rlt_dec (fst y) (fst r)) as [L|L].
  - apply inc_cons; [apply IH; [eapply inc_tail; eauto|intros; apply N; right; auto]|]. intros x I. apply (Permutation_in _ (Permutation_sym (insert_perm r l))) in I. destruct I as [<-|I]; [exact L|eapply inc_head; eauto].
  - apply inc_cons; [exact H|]. assert (YR : fst r < fst y) by (specialize (N y (or_introl eq_refl)); lra). intros x [<-|I]; [exact YR|]. pose proof (inc_head _ _ H _ I). lra.
Qed.
Lemma sort_inc l : NoDup (map fst l) -> increasing (sort_rows l).
Proof.
  induction l as [|r l IH]; intros H; cbn; [constructor|]. inversion H as [|? ? N D]. subst. apply insert_inc; [apply IH; exact D|]. intros x I E. apply N. rewrite <- E. apply in_map. apply (Permutation_in _ (Permutation_sym (sort_perm l)) I).
Qed.
(** ** from the kept rows to the table *)
Definition place (fc : conv) (dc : dconv) (r : R * vec) : R * vec := (Normalize_0_2PI (row_direction fc dc (fst r)), row_coef fc (snd r)).
Definition finish (l : list (R * vec)) : res (list (R * vec)) := match sort_rows l with [] => Undef | (_, c) :: _ => Ok (sort_rows l ++ [(2 * PI, c)]) end.
Lemma norm_congr a b : Normalize_0_2PI a = Normalize_0_2PI b -> congruent a b.
Proof.
  unfold Normalize_0_2PI, congruent. set (k := Int_part (a / (2 * PI))). set (j := Int_part (b / (2 * PI))). clearbody k j. intros E. exists (k - j)%Z. rewrite minus_IZR. lra.
Qed.
Lemma congr_norm a b : congruent a b -> Normalize_0_2PI a = Normalize_0_2PI b.
Proof.
  intros [k E]. pose proof (norm2pi_range a) as A. pose proof (norm2pi_range b) as B. unfold Normalize_0_2PI in *. set (ka := Int_part (a / (2 * PI))) in *. set (kb := Int_part (b / (2 * PI))) in *. clearbody ka kb. pose proof PI_RGT_0 as PP.
  assert (X : (k - ka + kb = 0)%Z). { subst a. assert (- (1) < IZR (k - ka + kb) < 1) as [L U].
    { rewrite plus_IZR, minus_IZR. split; apply Rmult_lt_reg_l with (2 * PI); try lra; nra. }
    apply lt_IZR in U. change (-(1)) with (IZR (-1)) in L. apply lt_IZR in L. lia. }
  assert (IZR k - IZR ka + IZR kb = 0) by (rewrite <- minus_IZR, <- plus_IZR, X; reflexivity). nra.
Qed.
Lemma congr_close a b : congruent a b -> - (2 * PI) < a - b < 2 * PI -> a = b.
Proof.
  intros [k E] H. pose proof PI_RGT_0 as PP. assert (- (1) < IZR k < 1) as [L U] by (split; apply Rmult_lt_reg_l with (2 * PI); lra). apply lt_IZR in U. change (-(1)) with (IZR (-1)) in L. apply lt_IZR in L. replace k with 0%Z in E by lia. lra.
Qed.
Lemma dir_congr fc dc a b : congruent (row_direction fc dc a) (row_direction fc dc b) -> congruent a b.
Proof.
  intros [k E]. unfold row_direction in E. destruct fc; [exists k|exists (- k)%Z; rewrite opp_IZR]; lra.
Qed.
Lemma in_range K : increasing K -> forall r, In r K -> first_angle K <= fst r <= final_angle K.
Proof.
  induction K as [|[a c] K IH]; intros INC r I; [destruct I|]. assert (FL : forall l x, l <> [] -> final_angle (x :: l) = final_angle l). { intros l x N. unfold final_angle. destruct l; [congruence|reflexivity]. }
  destruct K as [|s K]; [destruct I as [<-|[]]; unfold first_angle, final_angle; cbn; lra|]. rewrite FL by discriminate. pose proof (inc_head _ _ INC) as HD. cbn [fst] in HD. pose proof (IH (inc_tail _ _ INC)) as H. assert (FA : a < first_angle (s :: K)). { destruct s. apply (HD (r0, v)). left. reflexivity. }
  unfold first_angle at 1. destruct I as [<-|I]; [specialize (H s (or_introl eq_refl)); cbn [fst]; lra|]. specialize (H r I). specialize (HD r I). lra.
Qed.
Lemma place_nodup fc dc K : increasing K -> final_angle K - first_angle K < 2 * PI -> NoDup (map fst (map (place fc dc) K)).
Proof.
  intros INC FF. rewrite map_map. assert (INJ : forall r s, In r K -> In s K -> fst (place fc dc r) = fst (place fc dc s) -> fst r = fst s).
  { intros r s A B E. cbn in E. apply norm_congr, dir_congr in E. apply congr_close; [exact E|]. pose proof (in_range K INC r A). pose proof (in_range K INC s B). lra. }
  clear FF. induction K as [|r K IH]; [constructor|]. cbn. constructor.
  - intros I. apply in_map_iff in I. destruct I as [s [E I]]. pose proof (inc_head _ _ INC _ I) as L. assert (fst r = fst s) by (apply INJ; [left; reflexivity|right; exact I|symmetry; exact E]). lra.
  - apply IH; [eapply inc_tail; eauto|]. intros; apply INJ; [right|right|]; auto.
Qed.
Record good_table (fc : conv) (dc : dconv) (K table : list (R * vec)) : Prop := {
  gt_inc : increasing table;
  gt_len : (2 <= length table)%nat;
  gt_row : forall a c, In (a, c) K -> In (Normalize_0_2PI (row_direction fc dc a), row_coef fc c) table;
  gt_back : forall x c, In (x, c) table -> x < 2 * PI -> exists a c', In (a, c') K /\ x = Normalize_0_2PI (row_direction fc dc a) /\ c = row_coef fc c';
  gt_end : exists x c, In (x, c) table /\ In (2 * PI, c) table /\ x < 2 * PI /\ forall y d, In (y, d) table -> x <= y <= 2 * PI
}.
Lemma finish_good fc dc K : increasing K -> K <> [] -> final_angle K - first_angle K < 2 * PI -> exists table, finish (map (place fc dc) K) = Ok table /\ good_table fc dc K table.
Proof.
  intros INC NE FF. set (P := map (place fc dc) K). pose proof (sort_perm P) as PM. pose proof (sort_inc P (place_nodup fc dc K INC FF)) as SI. unfold finish. destruct (sort_rows P) as [|[x0 c0] S] eqn:E.
  - apply Permutation_sym, Permutation_nil in PM. unfold P in PM. destruct K; [congruence|discriminate].
  - eexists. split; [reflexivity|]. set (S0 := (x0, c0) :: S) in *.
    assert (RG : forall r, In r S0 -> 0 <= fst r < 2 * PI). { intros r I. apply (Permutation_in _ (Permutation_sym PM)) in I. unfold P in I. apply in_map_iff in I. destruct I as [k [<- _]]. cbn. apply norm2pi_range. }
    split.
    + apply inc_app; [exact SI|constructor|]. intros x y I [<-|[]]. cbn. apply RG, I.
    + rewrite app_length. cbn. lia.
    + intros a c I. apply in_or_app. left. apply (Permutation_in _ PM). unfold P. apply (in_map (place fc dc)) in I. exact I.
    + intros x c I LT. apply in_app_or in I. destruct I as [I|[I|[]]]; [|injection I as I _; lra]. apply (Permutation_in _ (Permutation_sym PM)) in I. unfold P in I. apply in_map_iff in I. destruct I as [[a c'] [EQ I]]. unfold place in EQ. cbn in EQ. injection EQ as E1 E2. exists a, c'. auto.
    + exists x0, c0. split; [apply in_or_app; left; left; reflexivity|]. split; [apply in_or_app; right; left; reflexivity|]. split; [apply (RG (x0, c0)); left; reflexivity|]. intros y d I. apply in_app_or in I. destruct I as [I|[I|[]]].
      * pose proof (RG _ I) as G. cbn in G. destruct I as [I|I]; [injection I as I _; lra|]. pose proof (inc_head _ _ SI _ I) as Y. cbn in Y. lra.
      * injection I as I _. pose proof (RG (x0, c0) (or_introl eq_refl)) as G. cbn in G. lra.
Qed.
(** what a good table answers *)
Lemma good_rows fc dc K table a c : good_table fc dc K table -> In (a, c) K -> Lookup table (Normalize_0_2PI (row_direction fc dc a)) = Ok (row_coef fc c).
Proof. intros G I. apply lookup_knot; [apply (gt_inc _ _ _ _ G)|apply (gt_len _ _ _ _ G)|apply (gt_row _ _ _ _ G); exact I]. Qed.
Lemma good_first fc dc K table : good_table fc dc K table -> (exists a c, In (a, c) K /\ congruent (row_direction fc dc a) 0) ->
  exists c, In (0, c) table /\ In (2 * PI, c) table.
Proof.
  intros G [a [c [I C]]]. pose proof (gt_row _ _ _ _ G a c I) as H. rewrite (congr_norm _ _ C) in H. assert (Z : Normalize_0_2PI 0 = 0). { unfold Normalize_0_2PI. apply norm_id. pose proof PI_RGT_0. lra. } rewrite Z in H.
  destruct (gt_end _ _ _ _ G) as (x & c' & A & B & LT & MN). assert (x = 0). { pose proof (MN _ _ H) as M1. destruct (gt_back _ _ _ _ G x c' A LT) as (a' & c'' & _ & E & _). pose proof (norm2pi_range (row_direction fc dc a')). lra. } subst x. exists c'. auto.
Qed.
Lemma good_defined fc dc K table x : good_table fc dc K table -> (exists a c, In (a, c) K /\ congruent (row_direction fc dc a) 0) -> 0 <= x <= 2 * PI -> exists c, Lookup table x = Ok c.
Proof.
  intros G Z X. destruct (good_first _ _ _ _ G Z) as [c [A B]]. pose proof PI_RGT_0 as PP. destruct (adjacent table x 0 (2 * PI) c c (gt_inc _ _ _ _ G) A B X ltac:(lra)) as (a & ca & b & cb & I1 & I2 & L & NB & AX).
  exists (lerp x a b ca cb). exact (lookup_between table a ca b cb x (gt_inc _ _ _ _ G) I1 I2 L NB AX).
Qed.
Lemma good_gap fc dc K table : good_table fc dc K table -> (forall a c, In (a, c) K -> ~ congruent (row_direction fc dc a) 0) -> Lookup table 0 = Throws.
Proof.
  intros G H. destruct table as [|[x c] t] eqn:E; [reflexivity|]. cbn [Lookup]. destruct (Rlt_dec 0 x) as [L|L]; [reflexivity|]. exfalso. pose proof PI_RGT_0 as PP.
  destruct (gt_back _ _ _ _ G x c (or_introl eq_refl) ltac:(lra)) as (a & c' & I & E1 & _). apply (H a c' I). pose proof (norm2pi_range (row_direction fc dc a)) as NR. assert (Z : x = 0) by lra.
  unfold congruent. unfold Normalize_0_2PI in E1. exists (Int_part (row_direction fc dc a / (2 * PI))). lra.
Qed.
Lemma row_coef_mirror fc c : mirror_coef (row_coef fc c) = row_coef fc (mirror_coef c).
Proof. destruct fc; unfold row_coef, convert, mirror_coef; cbn [vx vy vz]; reflexivity. Qed.
Lemma lerp_mirror x a b c d : a < b -> lerp (2 * PI - x) (2 * PI - b) (2 * PI - a) (mirror_coef d) (mirror_coef c) = mirror_coef (lerp x a b c d).
Proof. intros. unfold lerp, vadd, vscale, vsub, mirror_coef. cbn [vx vy vz]. apply vec_eq; cbn [vx vy vz]; field; repeat split; lra. Qed.
Lemma good_mirror fc dc K table : increasing K -> final_angle K - first_angle K < 2 * PI -> good_table fc dc K table -> (exists a c, In (a, c) K /\ congruent (row_direction fc dc a) 0) ->
  (forall a c, In (a, c) K -> exists a', In (a', mirror_coef c) K /\ congruent a' (- a)) ->
  forall x, 0 <= x <= 2 * PI -> exists c, Lookup table x = Ok c /\ Lookup table (2 * PI - x) = Ok (mirror_coef c).
Proof.
  intros INC FF G Z MIR. pose proof PI_RGT_0 as PP. destruct (good_first _ _ _ _ G Z) as [c0 [A0 B0]].
  assert (DM : forall a a', congruent a' (- a) -> congruent (row_direction fc dc a') (- row_direction fc dc a)).
  { intros a a' [k E]. unfold row_direction. destruct fc, dc; subst a'.
    all: unfold congruent. all: first [exists k; lra | exists (k + 1)%Z; rewrite plus_IZR; lra | exists (- k)%Z; rewrite opp_IZR; lra | exists (- k + 1)%Z; rewrite plus_IZR, opp_IZR; lra]. }
  assert (CL : forall x c, In (x, c) table -> In (2 * PI - x, mirror_coef c) table).
  { assert (MAIN : forall x c, In (x, c) table -> x < 2 * PI -> (0 < x -> In (2 * PI - x, mirror_coef c) table) /\ (x = 0 -> mirror_coef c = c)).
    { intros x c I LT. destruct (gt_back _ _ _ _ G x c I LT) as (a & c' & IK & E1 & E2). destruct (MIR a c' IK) as [a' [IK' CG]]. apply (DM a a') in CG. pose proof (gt_row _ _ _ _ G _ _ IK') as H. rewrite <- row_coef_mirror, <- E2 in H. split.
      - intros XP. assert (E3 : Normalize_0_2PI (row_direction fc dc a') = 2 * PI - x). { rewrite (congr_norm _ (2 * PI - x)); [unfold Normalize_0_2PI; apply norm_id; lra|]. destruct CG as [k E]. subst x. unfold Normalize_0_2PI. exists (k - 1 - Int_part (row_direction fc dc a / (2 * PI)))%Z. rewrite !minus_IZR. lra. } rewrite E3 in H. exact H.
      - intros X0. assert (E3 : Normalize_0_2PI (row_direction fc dc a') = x). { rewrite X0. rewrite (congr_norm _ 0); [unfold Normalize_0_2PI; apply norm_id; lra|]. destruct CG as [k E]. rewrite X0 in E1. unfold Normalize_0_2PI in E1. exists (k - Int_part (row_direction fc dc a / (2 * PI)))%Z. rewrite minus_IZR. lra. } rewrite E3 in H. eapply inc_unique; [apply (gt_inc _ _ _ _ G)|exact H|exact I]. }
    intros x c I. destruct (Req_EM_T x (2 * PI)) as [XE|XE].
    - subst x. assert (c = c0) by (eapply inc_unique; [apply (gt_inc _ _ _ _ G)|exact I|exact B0]). subst c. replace (2 * PI - 2 * PI) with 0 by ring. rewrite (proj2 (MAIN 0 c0 A0 ltac:(lra)) eq_refl). exact A0.
    - destruct (gt_end _ _ _ _ G) as (xf & cf & _ & _ & _ & MN). pose proof (MN _ _ I) as M1. destruct (MAIN x c I ltac:(lra)) as [M2 M3]. destruct (Req_EM_T x 0) as [X0|X0]; [|apply M2; destruct (gt_back _ _ _ _ G x c I ltac:(lra)) as (a & c' & _ & E1 & _); pose proof (norm2pi_range (row_direction fc dc a)); lra].
      rewrite (M3 X0). subst x. replace (2 * PI - 0) with (2 * PI) by ring. assert (c = c0) by (eapply inc_unique; [apply (gt_inc _ _ _ _ G)|exact I|exact A0]). subst c. exact B0. }
  intros x X. destruct (adjacent table x 0 (2 * PI) c0 c0 (gt_inc _ _ _ _ G) A0 B0 X ltac:(lra)) as (a & ca & b & cb & I1 & I2 & L & NB & AX).
  exists (lerp x a b ca cb). split; [exact (lookup_between table a ca b cb x (gt_inc _ _ _ _ G) I1 I2 L NB AX)|]. rewrite <- lerp_mirror by exact L. apply lookup_between; [exact (gt_inc _ _ _ _ G)|apply CL; exact I2|apply CL; exact I1|lra| |lra].
  intros [y d] I [Y1 Y2]. cbn in Y1, Y2. apply CL in I. apply (NB _ I). cbn. lra.
Qed.
