From Coq Require Import Reals List Bool ZArith Lra Lia Psatz.
From Verif Require Import GeoModel GeoSpec GeoProofs SeaModel DynModel DynSpec.
Import ListNotations.
Open Scope R_scope.

Lemma vnorm_zero : forall v, vnorm v = 0 -> v = vzero.
Proof.
  intros [a b c] H. unfold vnorm in H. apply sqrt_eq_0 in H; unfold vdot in *; cbn in *; [|nra].
  unfold vzero. assert (a = 0) by nra. assert (b = 0) by nra. assert (c = 0) by nra. subst. reflexivity.
Qed.
Lemma vnorm_pos : forall v, v <> vzero -> 0 < vnorm v.
Proof. intros v H. destruct (sqrt_pos (vdot v v)) as [P|P]; [exact P|]. exfalso. apply H, vnorm_zero. symmetry. exact P. Qed.
Lemma vnorm_sqr : forall v, vnorm v * vnorm v = vdot v v.
Proof. intros v. unfold vnorm. apply sqrt_sqrt. destruct v; unfold vdot; cbn; nra. Qed.
Lemma cn_value : forall v, v <> vzero -> cnormalize v = vscale (/ vnorm v) v.
Proof. intros v H. apply vnorm_pos in H. unfold cnormalize. destruct (Req_EM_T (vnorm v) 0); [lra|reflexivity]. Qed.
Lemma cn_along : forall v, v <> vzero -> along (cnormalize v) v.
Proof.
  intros v H. rewrite cn_value by exact H. pose proof (vnorm_pos v H) as P. pose proof (vnorm_sqr v) as S. split.
  - transitivity (/ vnorm v * / vnorm v * vdot v v); [destruct v; unfold dot3, vscale, vdot; cbn; ring|]. rewrite <- S. field. lra.
  - exists (vnorm v). split; [exact P|]. destruct v as [a b c]. unfold scal3, vscale. cbn [vx vy vz]. apply vec_eq; cbn [vx vy vz]; field; lra.
Qed.
Lemma cn_unit : forall v, dot3 v v = 1 -> cnormalize v = v.
Proof.
  intros v H. assert (N : vnorm v = 1) by (unfold vnorm; change (vdot v v) with (dot3 v v); rewrite H; apply sqrt_1).
  unfold cnormalize. rewrite N. destruct (Req_EM_T 1 0); [lra|]. destruct v as [a b c]; unfold vscale; apply vec_eq; cbn; field.
Qed.
Lemma along_dot : forall u v w, along u v -> dot3 v w = 0 -> dot3 u w = 0.
Proof. intros u v w (U & k & K & E) H. subst v. assert (G : dot3 (scal3 k u) w = k * dot3 u w) by (destruct u, w; unfold dot3, scal3; cbn; ring). rewrite G in H. apply Rmult_integral in H. destruct H; [lra|assumption]. Qed.
Lemma dot_sym : forall a b, dot3 a b = dot3 b a.
Proof. intros [] []. unfold dot3. cbn. ring. Qed.

(** e1, e3 unit and orthogonal: (e1, cn (e3 x e1), e3) is right handed *)
Lemma triad : forall e1 e3, dot3 e1 e1 = 1 -> dot3 e3 e3 = 1 -> dot3 e1 e3 = 0 -> right_handed (e1, cnormalize (vcross e3 e1), e3).
Proof.
  intros e1 e3 U W O. assert (N : dot3 (vcross e3 e1) (vcross e3 e1) = 1).
  { transitivity (dot3 e3 e3 * dot3 e1 e1 - dot3 e1 e3 * dot3 e1 e3); [destruct e1, e3; unfold dot3, vcross; cbn; ring|]. rewrite U, W, O. ring. }
  rewrite cn_unit by exact N. unfold right_handed, unit3. split; [exact U|]. split; [exact N|]. split; [exact W|].
  split; [destruct e1, e3; unfold dot3, vcross; cbn; ring|]. split; [destruct e1, e3; unfold dot3, vcross; cbn; ring|]. split; [rewrite dot_sym; exact O|].
  transitivity (minus3 (scal3 (dot3 e1 e1) e3) (scal3 (dot3 e1 e3) e1)).
  - destruct e1, e3; unfold dot3, vcross, cross3, minus3, scal3; apply vec_eq; cbn; ring.
  - rewrite U, O. destruct e1, e3; unfold minus3, scal3; apply vec_eq; cbn; ring.
Qed.

Lemma normal : forall T D, cross3 T D <> origin ->
  along (cnormalize (vcross (cnormalize T) (cnormalize D))) (cross3 T D).
Proof.
  intros T D H. assert (HT : T <> vzero). { intros ->. apply H. destruct D; unfold cross3, vzero, origin; apply vec_eq; cbn; ring. }
  assert (HD : D <> vzero). { intros ->. apply H. destruct T; unfold cross3, vzero, origin; apply vec_eq; cbn; ring. }
  destruct (cn_along T HT) as (UT & k & K & ET). destruct (cn_along D HD) as (UD & d & P & ED). set (t := cnormalize T) in *. set (e := cnormalize D) in *. clearbody t e.
  assert (G : cross3 T D = scal3 (k * d) (vcross t e)). { rewrite ET, ED. destruct t, e; unfold cross3, scal3, vcross; apply vec_eq; cbn; ring. }
  assert (C : vcross t e <> vzero). { intros E. apply H. rewrite G, E. unfold scal3, vzero, origin. apply vec_eq; cbn; ring. }
  destruct (cn_along _ C) as (U & m & M & E). split; [exact U|]. exists (k * d * m). split; [apply Rmult_lt_0_compat; [nra|exact M]|].
  rewrite G, E at 1. destruct (cnormalize (vcross t e)); unfold scal3; apply vec_eq; cbn; ring.
Qed.

(** ** The loops *)
Lemma taut_length : forall ds AB axes n p, List.length (taut_nodes ds AB axes p n) = n.
Proof. induction n as [|n IH]; intros p; cbn; [reflexivity|]. now rewrite IH. Qed.
Lemma taut_nth : forall ds AB axes n p i, (i < n)%nat ->
  nth_error (taut_nodes ds AB axes p n) i = Some (FNode (vadd p (vscale (INR (S i) * ds) AB)) axes).
Proof.
  induction n as [|n IH]; intros p i H; [lia|]. destruct i as [|i].
  - cbn [taut_nodes nth_error INR]. f_equal. f_equal. rewrite Rmult_1_l. reflexivity.
  - cbn [taut_nodes nth_error]. rewrite IH by lia. f_equal. f_equal. rewrite (S_INR (S i)). destruct p as [p1 p2 p3], AB as [a1 a2 a3]; unfold vadd, vscale; apply vec_eq; cbn -[INR]; ring.
Qed.
Lemma slack_length : forall ds cat e3 n s, List.length (slack_nodes ds cat e3 s n) = n.
Proof. induction n as [|n IH]; intros s; cbn; [reflexivity|]. now rewrite IH. Qed.
Lemma slack_nth : forall ds cat e3 n s i, (i < n)%nat ->
  nth_error (slack_nodes ds cat e3 s n) i = let x := s + INR (S i) * ds in let e1 := cnormalize (ct_tension cat x) in
     Some (FNode (ct_pos cat x) (e1, cnormalize (vcross e3 e1), e3)).
Proof.
  induction n as [|n IH]; intros s i H; [lia|]. destruct i as [|i].
  - cbn [slack_nodes nth_error INR]. cbv zeta. rewrite Rmult_1_l. reflexivity.
  - cbn [slack_nodes nth_error]. rewrite IH by lia. cbv zeta. replace (s + ds + INR (S i) * ds) with (s + INR (S (S i)) * ds); [reflexivity|]. rewrite (S_INR (S i)). ring.
Qed.
Lemma dist_norm : forall A B, vnorm (vsub B A) = dist3 B A.
Proof. intros [] []. reflexivity. Qed.

Section INIT.
Variables (A B : vec) (axes : vec * vec * vec) (make : R -> catenary) (c : dcable).
Hypothesis F : fresh c.
Let c' := dc_Initialize A B axes make c.
Let cat := make (d_length c).
Let N := cross3 (ct_tension cat 0) (minus3 B A).
Lemma init_keep : d_length c' = d_length c /\ d_elements c' = d_elements c /\ d_start_hinge c' = d_start_hinge c /\ d_end_hinge c' = d_end_hinge c /\
  d_start_locks c' = locks (d_start_hinge c) /\ d_end_locks c' = locks (d_end_hinge c).
Proof using F. subst c'. destruct F as (E & _). unfold dc_Initialize. rewrite E. cbn. repeat split. Qed.
Lemma init_chain : chain c'.
Proof using F.
  destruct F as (E & _ & _ & P). unfold chain. assert (K := init_keep). destruct K as (_ & K & _). rewrite K. subst c'. unfold dc_Initialize. rewrite E. cbn [d_nodes d_beams]. split.
  - cbn [List.length]. destruct (Rle_dec _ _); [rewrite taut_length|rewrite slack_length]; reflexivity.
  - split; [rewrite map_length, seq_length; reflexivity|]. intros i H. rewrite nth_error_map. 
    rewrite (nth_error_nth' _ 0%nat) by (rewrite seq_length; exact H). rewrite seq_nth by exact H. reflexivity.
Qed.
Lemma init_slack : dist3 B A < d_length c -> node_at c' 0 = Some (FNode A (let e1 := cnormalize (ct_tension cat 0) in let e3 := cnormalize (vcross e1 (cnormalize (vsub B A))) in (e1, cnormalize (vcross e3 e1), e3))) /\
  forall i, (1 <= i <= d_elements c)%nat -> node_at c' i = let x := abscissa c i in let e1 := cnormalize (ct_tension cat x) in
     let e3 := cnormalize (vcross (cnormalize (ct_tension cat 0)) (cnormalize (vsub B A))) in Some (FNode (ct_pos cat x) (e1, cnormalize (vcross e3 e1), e3)).
Proof using F.
  intros D. destruct F as (E & _ & L & P). unfold node_at. subst c' cat. unfold dc_Initialize. rewrite E. cbn [d_nodes]. rewrite dist_norm.
  destruct (Rle_dec (d_length c) (dist3 B A)) as [X|X]; [lra|]. split; [reflexivity|]. intros i H. destruct i as [|i]; [lia|]. cbn [nth_error].
  rewrite slack_nth by lia. cbv zeta. unfold abscissa. assert (J : INR (d_elements c) <> 0) by (apply not_0_INR; lia).
  replace (0 + INR (S i) * (d_length c / INR (d_elements c))) with (INR (S i) / INR (d_elements c) * d_length c) by (field; exact J). reflexivity.
Qed.
Lemma init_taut : d_length c <= dist3 B A -> forall i, (i <= d_elements c)%nat ->
   node_at c' i = Some (FNode (vadd A (vscale (abscissa c i) (cnormalize (vsub B A)))) axes).
Proof using F.
  intros D i H. destruct F as (E & _ & L & P). unfold node_at. subst c'. unfold dc_Initialize. rewrite E. cbn [d_nodes]. rewrite dist_norm.
  destruct (Rle_dec (d_length c) (dist3 B A)) as [X|X]; [|lra]. assert (J : INR (d_elements c) <> 0) by (apply not_0_INR; lia). destruct i as [|i]; cbn [nth_error].
  - f_equal. f_equal. unfold abscissa. cbn [INR]. generalize (cnormalize (vsub B A)). intros [u1 u2 u3]. destruct A as [a1 a2 a3]; unfold vadd, vscale; apply vec_eq; cbn -[INR]; field; exact J.
  - rewrite taut_nth by lia. f_equal. f_equal. f_equal. f_equal. unfold abscissa. field. exact J.
Qed.
Lemma slack_axes : dist3 B A < d_length c -> N <> origin -> (forall s, 0 <= s <= d_length c -> ct_tension cat s <> origin /\ dot3 (ct_tension cat s) N = 0) ->
  forall i, (i <= d_elements c)%nat -> exists nd, node_at c' i = Some nd /\ right_handed (fn_axes nd) /\ along (first_axis (fn_axes nd)) (ct_tension cat (abscissa c i)) /\
    along (third_axis (fn_axes nd)) N.
Proof using F.
  intros D HN HT i H. destruct F as (E & _ & L & P). destruct (init_slack D) as (Z & S). assert (J : 0 < INR (d_elements c)) by (apply lt_0_INR; lia).
  assert (R : 0 <= abscissa c i <= d_length c).
  { unfold abscissa. assert (0 <= INR i / INR (d_elements c) <= 1).
    { pose proof (pos_INR i). apply le_INR in H. unfold Rdiv. split; [apply Rle_mult_inv_pos; lra|]. apply (Rmult_le_reg_r (INR (d_elements c))); [lra|]. rewrite Rmult_assoc, Rinv_l by lra. lra. }
    nra. }
  pose proof (normal (ct_tension cat 0) (minus3 B A) HN) as A3. change (minus3 B A) with (vsub B A) in A3 at 1.
  set (e3 := cnormalize (vcross (cnormalize (ct_tension cat 0)) (cnormalize (vsub B A)))) in *.
  assert (G : forall s, 0 <= s <= d_length c -> right_handed (cnormalize (ct_tension cat s), cnormalize (vcross e3 (cnormalize (ct_tension cat s))), e3) /\ along (cnormalize (ct_tension cat s)) (ct_tension cat s)).
  { intros s Hs. destruct (HT s Hs) as (N0 & O). pose proof (cn_along _ N0) as A1. split; [|exact A1]. apply triad; [exact (proj1 A1)|exact (proj1 A3)|].
    rewrite dot_sym. apply (along_dot e3 N); [exact A3|]. rewrite dot_sym. apply (along_dot _ _ _ A1). exact O. }
  destruct (Nat.eq_dec i 0) as [->|I].
  - eexists. split; [exact Z|]. cbn [fn_axes first_axis third_axis]. assert (X : abscissa c 0 = 0) by (unfold abscissa; cbn [INR]; field; lra). rewrite X in R |- *. destruct (G 0 R) as (G1 & G2).
    split; [exact G1|]. split; [exact G2|exact A3].
  - eexists. split; [apply S; lia|]. cbn [fn_axes first_axis third_axis]. destruct (G _ R) as (G1 & G2). split; [exact G1|]. split; [exact G2|exact A3].
Qed.
End INIT.

(** ** Reading along the cable *)
Lemma Int_spec : forall x, IZR (Int_part x) <= x < IZR (Int_part x) + 1.
Proof. intros x. destruct (base_Int_part x). lra. Qed.
Lemma Int_nat : forall x k, INR k <= x < INR k + 1 -> Int_part x = Z.of_nat k.
Proof.
  intros x k H. rewrite INR_IZR_INZ in H. destruct (Int_spec x) as [P Q]. assert (IZR (Int_part x) < IZR (Z.of_nat k + 1)) by (rewrite plus_IZR; lra).
  assert (IZR (Z.of_nat k) < IZR (Int_part x + 1)) by (rewrite plus_IZR; lra). apply lt_IZR in H0, H1. lia.
Qed.
Lemma split_index : forall x n, 0 <= x < INR n -> exists k, (k < n)%nat /\ INR k <= x < INR k + 1 /\ Int_part x = Z.of_nat k.
Proof.
  intros x n H. destruct (Int_spec x) as [P Q]. assert (J : (0 <= Int_part x)%Z). { assert (IZR (-1) < IZR (Int_part x)) by lra. apply lt_IZR in H0. lia. }
  exists (Z.to_nat (Int_part x)). assert (K : INR (Z.to_nat (Int_part x)) = IZR (Int_part x)) by (rewrite INR_IZR_INZ, Z2Nat.id by exact J; reflexivity).
  split; [apply INR_lt; rewrite K; lra|]. rewrite K. split; [lra|]. rewrite Z2Nat.id by exact J. reflexivity.
Qed.
Section READ.
Variable c : dcable.
Hypotheses (L : 0 < d_length c) (P : (1 <= d_elements c)%nat) (H : chain c).
Let n := d_elements c.
Let J : 0 < INR n.
Proof. apply lt_0_INR. subst n. lia. Qed.
Lemma element_inside : forall s, 0 <= s < d_length c -> exists i eta, (i < n)%nat /\ -1 <= eta < 1 /\ s = (INR i + (eta + 1) / 2) * (d_length c / INR n) /\ element c s = Ok ((i, S i), eta).
Proof using L P H.
  intros s Hs. assert (X : 0 <= s / (d_length c / INR n) < INR n).
  { replace (s / (d_length c / INR n)) with (s / d_length c * INR n) by (field; lra). assert (0 <= s / d_length c < 1).
    { split; [apply Rle_mult_inv_pos; lra|]. apply (Rmult_lt_reg_r (d_length c)); [lra|]. unfold Rdiv. rewrite Rmult_assoc, Rinv_l by lra. lra. } nra. }
  destruct (split_index _ _ X) as (k & K & B & E). exists k, (2 * (s / (d_length c / INR n) - INR k) - 1). split; [exact K|]. split; [lra|]. split.
  - field. split; [lra|exact (Rgt_not_eq _ _ L)].
  - unfold element, locate. fold n. rewrite E. destruct (Req_EM_T s (d_length c)); [lra|]. cbn [negb andb]. destruct (Z.ltb_spec (Z.of_nat k) 0); [lia|].
    rewrite Nat2Z.id. destruct H as (_ & _ & HB). rewrite HB by exact K. cbn [of_option rbind]. rewrite <- INR_IZR_INZ. reflexivity.
Qed.
Lemma element_end : element c (d_length c) = Ok (((n - 1)%nat, n), 1).
Proof using P H.
  unfold element, locate. fold n. destruct (Req_EM_T (d_length c) (d_length c)); [|lra]. cbn [negb andb]. destruct H as (_ & _ & HB). fold n in HB. rewrite HB by (subst n; lia).
  cbn [of_option rbind]. replace (S (n - 1)) with n by (subst n; lia). reflexivity.
Qed.
Lemma element_node : forall k, (k < n)%nat -> element c (abscissa c k) = Ok ((k, S k), -1).
Proof using L P H.
  intros k K. assert (KR : INR k < INR n) by (apply lt_INR; exact K). pose proof (pos_INR k) as K0. assert (Y : abscissa c k / (d_length c / INR n) = INR k) by (unfold abscissa; fold n; field; split; lra).
  assert (X : abscissa c k <> d_length c). { intros E. rewrite E in Y. assert (d_length c / (d_length c / INR n) = INR n) by (field; lra). lra. }
  unfold element, locate. fold n. rewrite Y. destruct (Req_EM_T (abscissa c k) (d_length c)); [contradiction|]. rewrite (Int_nat (INR k) k) by lra. cbn [negb andb]. destruct (Z.ltb_spec (Z.of_nat k) 0); [lia|].
  rewrite Nat2Z.id. destruct H as (_ & _ & HB). rewrite HB by exact K. cbn [of_option rbind]. rewrite <- INR_IZR_INZ. do 2 f_equal. ring.
Qed.
Lemma element_beyond : forall s, d_length c < s -> element c s = Undef.
Proof using L P H.
  intros s Hs. assert (X : INR n < s / (d_length c / INR n)).
  { replace (s / (d_length c / INR n)) with (s / d_length c * INR n) by (field; lra). assert (1 < s / d_length c). { apply (Rmult_lt_reg_r (d_length c)); [lra|]. unfold Rdiv. rewrite Rmult_assoc, Rinv_l by lra. lra. } nra. }
  unfold element, locate. fold n. destruct (Req_EM_T s (d_length c)); [lra|]. destruct (Int_spec (s / (d_length c / INR n))) as [B1 B2]. set (z := Int_part _) in *.
  pose proof (INR_IZR_INZ n) as NI. assert (G : (Z.of_nat n <= z)%Z). { assert (W : IZR (Z.of_nat n) < IZR (z + 1)) by (rewrite plus_IZR, <- NI; lra). apply lt_IZR in W. lia. }
  cbn [negb andb]. destruct (Z.ltb_spec z 0); [lia|]. destruct H as (_ & HL & _). fold n in HL.
  assert (E : nth_error (d_beams c) (Z.to_nat z) = None) by (apply nth_error_None; rewrite HL; lia). rewrite E. reflexivity.
Qed.
Lemma element_before : forall s, s < 0 -> element c s = Undef.
Proof using L P.
  intros s Hs. assert (X : s / (d_length c / INR n) < 0).
  { replace (s / (d_length c / INR n)) with (- (- s / d_length c * INR n)) by (field; lra). assert (0 < - s / d_length c) by (apply Rdiv_lt_0_compat; lra). nra. }
  unfold element, locate. fold n. destruct (Req_EM_T s (d_length c)); [lra|]. destruct (Int_spec (s / (d_length c / INR n))) as [B1 B2]. set (z := Int_part _) in *.
  assert (G : (z < 0)%Z) by (apply lt_IZR; lra). cbn [negb andb]. destruct (Z.ltb_spec z 0); [reflexivity|lia].
Qed.
End READ.

Lemma residual_from : forall l r, fold_left (fun r v => r + vnorm v) l r = r + fold_left (fun r v => r + vnorm v) l 0.
Proof. induction l as [|v l IH]; intros r; cbn; [ring|]. rewrite IH, (IH (0 + vnorm v)). ring. Qed.
Lemma residual_pos : forall l, 0 <= dc_GetStaticResidual l.
Proof. unfold dc_GetStaticResidual. induction l as [|v l IH]; cbn; [lra|]. rewrite residual_from. assert (0 <= vnorm v) by apply sqrt_pos. lra. Qed.
Lemma residual_zero : forall l, dc_GetStaticResidual l = 0 <-> Forall (fun v => v = origin) l.
Proof.
  induction l as [|v l IH]; [split; [constructor|reflexivity]|]. assert (E : dc_GetStaticResidual (v :: l) = vnorm v + dc_GetStaticResidual l) by (unfold dc_GetStaticResidual; cbn; rewrite residual_from; ring).
  rewrite E. pose proof (residual_pos l) as P. assert (Q : 0 <= vnorm v) by apply sqrt_pos. split.
  - intros X. constructor; [apply vnorm_zero; lra|]. apply IH. lra.
  - intros X. inversion X as [|? ? V G]; subst. apply IH in G. rewrite G. unfold vnorm, vdot, origin. cbn. replace (0 * 0 + 0 * 0 + 0 * 0) with 0 by ring. rewrite sqrt_0. ring.
Qed.
