(** Lemmas: bisection, directional spreading *)
From Coq Require Import Reals List Lra Lia Psatz Arith ZArith.
From Coquelicot Require Import Coquelicot.
From Verif Require FunProofs.
From Verif Require Import GeoModel DispModel WavModel WavSpec WavProofs SeaModel SeaSpec SeaProofs SeaProofs2.
Import ListNotations.
Open Scope R_scope.

Lemma eps_pos : 0 < epsilon.
Proof. unfold epsilon. apply Rinv_0_lt_compat. lra. Qed.
Lemma eps_val : epsilon = / 10000000000.
Proof. reflexivity. Qed.

(** ** Bisection *)
Lemma bisect_ok n ev : forall a b thr r, a <= b -> bisect n ev a b thr = Ok r -> a < r < b /\ exists e, ev r = Ok e /\ Rabs (e - thr) < epsilon.
Proof.
  induction n as [|n IH]; intros a b thr r AB H; cbn in H; [discriminate|].
  destruct (Rlt_dec (epsilon * epsilon) (Rabs (a - b))) as [D|D]; [|discriminate].
  assert (LT : a < b). { destruct (Rle_lt_or_eq_dec _ _ AB) as [?|E]; [assumption|]. subst. rewrite Rminus_eq_0, Rabs_R0 in D. pose proof eps_pos. nra. }
  destruct (ev ((a + b) / 2)) as [er| | | |] eqn:E1; try discriminate. cbn in H.
  destruct (Rlt_dec (Rabs (er - thr)) epsilon) as [Q|Q].
  - injection H as <-. split; [lra|]. exists er. auto.
  - destruct (ev b) as [em| | | |] eqn:E2; try discriminate. cbn in H. destruct (Rlt_dec _ 0).
    + apply IH in H; [|lra]. destruct H as [? ?]. split; [lra|assumption].
    + apply IH in H; [|lra]. destruct H as [? ?]. split; [lra|assumption].
Qed.
Lemma bisect_ends n ev : forall a b thr, (forall w, exists e, ev w = Ok e) -> Rabs (a - b) <= epsilon * epsilon * 2 ^ n -> exists r, bisect (S n) ev a b thr = r /\ (r = Throws \/ exists w, r = Ok w).
Proof.
  induction n as [|n IH]; intros a b thr T H.
  - eexists. split; [reflexivity|]. left. cbn. destruct (Rlt_dec _ _) as [D|D]; [cbn in H; lra|reflexivity].
  - eexists. split; [reflexivity|]. remember (S n) as m. cbn. destruct (Rlt_dec _ _) as [D|D]; [|left; reflexivity].
    destruct (T ((a + b) / 2)) as [er E1]. rewrite E1. cbn. destruct (Rlt_dec _ epsilon); [right; eauto|].
    destruct (T b) as [em E2]. rewrite E2. cbn. subst m. cbn [pow] in H.
    destruct (Rlt_dec _ 0).
    + destruct (IH ((a + b) / 2) b thr T) as [r0 [E P]]; [|rewrite E; exact P].
      replace ((a + b) / 2 - b) with ((a - b) / 2) by field. unfold Rdiv. rewrite Rabs_mult, (Rabs_pos_eq (/ 2)) by lra. lra.
    + destruct (IH a ((a + b) / 2) thr T) as [r0 [E P]]; [|rewrite E; exact P].
      replace (a - (a + b) / 2) with ((a - b) / 2) by field. unfold Rdiv. rewrite Rabs_mult, (Rabs_pos_eq (/ 2)) by lra. lra.
Qed.
Lemma pow_reaches x : exists n, x <= epsilon * epsilon * 2 ^ n.
Proof.
  destruct (Pow_x_infinity 2 ltac:(rewrite Rabs_pos_eq; lra) (x / (epsilon * epsilon))) as [n Hn]. exists n.
  specialize (Hn n ltac:(lia)). rewrite Rabs_pos_eq in Hn by (apply pow_le; lra). pose proof eps_pos.
  assert (0 < epsilon * epsilon) by nra. apply Rge_le in Hn. apply (Rmult_le_compat_l (epsilon * epsilon)) in Hn; [|lra].
  replace (epsilon * epsilon * (x / (epsilon * epsilon))) with x in Hn by (field; lra). exact Hn.
Qed.
Lemma bisect_mono n ev : forall a b thr r, bisect n ev a b thr = r -> r <> Running -> forall m, (n <= m)%nat -> bisect m ev a b thr = r.
Proof.
  induction n as [|n IH]; intros a b thr r H NR m Hm; [cbn in H; congruence|].
  destruct m as [|m]; [lia|]. cbn in H |- *. destruct (Rlt_dec _ _); [|exact H]. destruct (ev ((a + b) / 2)); cbn in H |- *; try exact H.
  destruct (Rlt_dec _ epsilon); [exact H|]. destruct (ev b); cbn in H |- *; try exact H. destruct (Rlt_dec _ 0); eapply IH; eauto; lia.
Qed.
(** with opposite signs at the ends and a slope below 1e10 the search does not throw *)
Lemma bisect_never_throws n (f : R -> R) K : forall a b thr, K * epsilon < 1 -> a < b -> (forall u v, a <= u <= b -> a <= v <= b -> Rabs (f u - f v) <= K * Rabs (u - v)) ->
  (f a - thr) * (f b - thr) < 0 -> (epsilon * epsilon < b - a \/ epsilon <= Rabs (f a - thr) \/ epsilon <= Rabs (f b - thr)) ->
  bisect n (fun w => Ok (f w)) a b thr <> Throws.
Proof.
  induction n as [|n IH]; intros a b thr HK AB LIP SG INV; cbn; [discriminate|].
  pose proof eps_pos as EP.
  assert (OPP : Rabs (f a - thr) <= Rabs (f a - f b) /\ Rabs (f b - thr) <= Rabs (f a - f b)).
  { destruct (Rle_lt_dec 0 (f a - thr)) as [P|P].
    - assert (f b - thr < 0) by nra. rewrite (Rabs_pos_eq (f a - thr)), (Rabs_left (f b - thr)), (Rabs_pos_eq (f a - f b)) by lra. lra.
    - assert (0 < f b - thr) by nra. rewrite (Rabs_left (f a - thr)), (Rabs_pos_eq (f b - thr)), (Rabs_left (f a - f b)) by lra. lra. }
  destruct (Rlt_dec (epsilon * epsilon) (Rabs (a - b))) as [D|D].
  2:{ exfalso. rewrite (Rabs_left (a - b)) in D by lra. pose proof (LIP a b ltac:(lra) ltac:(lra)) as L. rewrite (Rabs_left (a - b)) in L by lra.
      assert (0 <= K). { destruct (Rle_lt_dec 0 K); [assumption|]. pose proof (Rabs_pos (f a - f b)). nra. }
      assert (BA : b - a <= epsilon * epsilon) by lra.
      assert (K * - (a - b) <= K * (epsilon * epsilon)) by (apply Rmult_le_compat_l; lra).
      assert (K * (epsilon * epsilon) < epsilon). { replace (K * (epsilon * epsilon)) with (K * epsilon * epsilon) by ring. nra. }
      destruct INV as [?|[?|?]]; lra. }
  destruct (Rlt_dec (Rabs (f ((a + b) / 2) - thr)) epsilon) as [Q|Q]; [discriminate|].
  assert (SUB : forall a' b', a <= a' -> b' <= b -> forall u v, a' <= u <= b' -> a' <= v <= b' -> Rabs (f u - f v) <= K * Rabs (u - v)) by (intros; apply LIP; lra).
  destruct (Rlt_dec _ 0) as [S1|S1].
  - apply IH; try assumption; [lra|apply SUB; lra|lra|]. right. left. lra.
  - apply IH; try assumption; [lra|apply SUB; lra| |right; right; lra].
    assert (f ((a + b) / 2) - thr <> 0). { intros Z. rewrite Z, Rabs_R0 in Q. lra. }
    destruct (Rle_lt_dec 0 (f a - thr)) as [P|P]; [assert (f b - thr < 0) by nra|assert (0 < f b - thr) by nra];
      destruct (Rle_lt_dec 0 (f ((a + b) / 2) - thr)); nra.
Qed.
Lemma lipschitz_from (f f' : R -> R) K a b : a <= b -> (forall w, a <= w <= b -> is_derive f w (f' w)) -> (forall w, a <= w <= b -> Rabs (f' w) <= K) ->
  forall u v, a <= u <= b -> a <= v <= b -> Rabs (f u - f v) <= K * Rabs (u - v).
Proof.
  intros AB D B. assert (W : forall u v, a <= u <= b -> a <= v <= b -> u <= v -> Rabs (f v - f u) <= K * Rabs (v - u)).
  { intros u v U V UV. destruct (MVT_gen f u v f') as [c [C E]].
    - intros x Hx. rewrite Rmin_left, Rmax_right in Hx by lra. apply D. lra.
    - intros x Hx. rewrite Rmin_left, Rmax_right in Hx by lra. apply derivable_continuous_pt. exists (f' x). apply is_derive_Reals. apply D. lra.
    - rewrite Rmin_left, Rmax_right in C by lra. rewrite E, Rabs_mult. apply Rmult_le_compat_r; [apply Rabs_pos|]. apply B. lra. }
  intros u v U V. destruct (Rle_lt_dec u v); [|apply W; lra]. rewrite <- Rabs_Ropp, Ropp_minus_distr, <- (Rabs_Ropp (u - v)), Ropp_minus_distr. apply W; lra.
Qed.
Lemma bisect_finds (f : R -> R) K a b thr : K * epsilon < 1 -> epsilon * epsilon < b - a -> (forall u v, a <= u <= b -> a <= v <= b -> Rabs (f u - f v) <= K * Rabs (u - v)) ->
  (f a - thr) * (f b - thr) < 0 -> exists n r, (forall m, (n <= m)%nat -> bisect m (fun w => Ok (f w)) a b thr = Ok r) /\ a < r < b /\ Rabs (f r - thr) < epsilon.
Proof.
  intros HK AB L SG. pose proof eps_pos as EP. destruct (pow_reaches (Rabs (a - b))) as [n Hn].
  destruct (bisect_ends n (fun w => Ok (f w)) a b thr ltac:(intros; eauto) Hn) as [r [E [T|[w W]]]].
  - exfalso. apply (bisect_never_throws (S n) f K a b thr HK ltac:(nra) L SG ltac:(left; exact AB)). congruence.
  - exists (S n), w. subst r. split; [|].
    + intros m Hm. eapply bisect_mono; [exact W|discriminate|exact Hm].
    + destruct (bisect_ok (S n) _ a b thr w ltac:(nra) W) as [H1 [e [H2 H3]]]. injection H2 as <-. auto.
Qed.

(** ** Spreading function *)
Lemma pow2s_nat x n : (1 <= n)%nat -> pow2s x (INR n) = Ok (x ^ (2 * n)).
Proof.
  intros N. assert (E : 2 * INR n = INR (2 * n)) by (rewrite mult_INR; cbn; ring). unfold pow2s. rewrite E.
  destruct (Rlt_dec 0 x) as [P|P]; [rewrite Rpower_pow by exact P; reflexivity|].
  destruct (Req_EM_T x 0) as [->|NZ]; [rewrite pow_i by lia; reflexivity|].
  assert (IP : Int_part (INR (2 * n)) = Z.of_nat (2 * n)). { rewrite INR_IZR_INZ. apply FunProofs.Int_part_IZR. }
  rewrite IP, <- INR_IZR_INZ. destruct (Req_EM_T _ _) as [_|F]; [|contradiction].
  assert (EV : Z.even (Z.of_nat (2 * n)) = true). { rewrite Nat2Z.inj_mul, Z.even_mul. reflexivity. }
  rewrite EV. rewrite Rpower_pow by lra. f_equal. rewrite !pow_mult. f_equal. ring.
Qed.
Definition Wn (n : nat) : R := 2 * PI * (INR (fact (2 * n)) / (4 ^ n * (INR (fact n) * INR (fact n)))).
Lemma Wn_S n : INR (n + 1) * Wn (S n) = (2 * INR n + 1) / 2 * Wn n.
Proof.
  unfold Wn. replace (2 * S n)%nat with (S (S (2 * n))) by lia. rewrite !fact_simpl, !mult_INR. cbn [pow]. pose proof (pow_lt 4 n ltac:(lra)).
  assert (INR (fact n) <> 0) by apply INR_fact_neq_0. rewrite plus_INR, !S_INR, mult_INR. cbn [INR]. assert (0 <= INR n) by apply pos_INR. field. repeat split; lra.
Qed.
Lemma wallis m n : is_RInt (fun t => cos (/ 2 * (t - m)) ^ (2 * n)) (m - PI) (m + PI) (Wn n).
Proof.
  induction n as [|n IH].
  - apply is_RInt_ext with (f := fun _ => 1); [intros; reflexivity|]. replace (Wn 0) with (scal (m + PI - (m - PI)) 1); [apply (is_RInt_const (V := R_NormedModule))|].
    unfold Wn, scal. cbn. unfold mult. cbn. field.
  - set (F := fun t => sin (/ 2 * (t - m)) * cos (/ 2 * (t - m)) ^ (2 * n + 1)).
    set (dF := fun t => INR (n + 1) * cos (/ 2 * (t - m)) ^ (2 * S n) - (2 * INR n + 1) / 2 * cos (/ 2 * (t - m)) ^ (2 * n)).
    assert (D : forall t, is_derive F t (dF t)).
    { intros t. unfold F, dF. auto_derive; [exact I|]. replace (n + (n + 0) + 1)%nat with (S (2 * n)) by lia. cbn [Nat.pred]. replace (2 * S n)%nat with (S (S (2 * n))) by lia.
      cbn [pow]. rewrite plus_INR, S_INR, mult_INR. cbn [INR]. set (c := cos (/ 2 * (t + - m))). replace (cos (/ 2 * (t - m))) with c by reflexivity.
      assert (Q : sin (/ 2 * (t + - m)) * sin (/ 2 * (t + - m)) = 1 - c * c). { pose proof (sin2_cos2 (/ 2 * (t + - m))) as Q. unfold Rsqr in Q. fold c in Q. lra. }
      set (s := sin (/ 2 * (t + - m))) in *. set (p := c ^ (2 * n)). 
      match goal with |- ?l = ?r => replace l with (/ 2 * c * (c * p) - (s * s) * (2 * INR n + 1) / 2 * p) by (unfold p; field) end. rewrite Q. field. }
    assert (I0 : is_RInt dF (m - PI) (m + PI) 0).
    { replace 0 with (minus (F (m + PI)) (F (m - PI))).
      - apply (is_RInt_derive F); intros; [apply D|]. unfold dF. apply (ex_derive_continuous (V := R_NormedModule)). auto_derive. exact I.
      - unfold F. replace (/ 2 * (m + PI - m)) with (PI / 2) by field. replace (/ 2 * (m - PI - m)) with (- (PI / 2)) by field. rewrite cos_neg, cos_PI2.
        replace (2 * n + 1)%nat with (S (2 * n)) by lia. cbn [pow]. unfold minus, plus, opp. cbn. ring. }
    assert (NP : 0 < INR (n + 1)) by (apply lt_0_INR; lia).
    assert (J : is_RInt (fun t => / INR (n + 1) * (dF t + (2 * INR n + 1) / 2 * cos (/ 2 * (t - m)) ^ (2 * n))) (m - PI) (m + PI) (/ INR (n + 1) * (0 + (2 * INR n + 1) / 2 * Wn n))).
    { apply (is_RInt_scal (V := R_NormedModule)). apply (is_RInt_plus (V := R_NormedModule)); [exact I0|]. apply (is_RInt_scal (V := R_NormedModule)). exact IH. }
    replace (/ INR (n + 1) * (0 + (2 * INR n + 1) / 2 * Wn n)) with (Wn (S n)) in J.
    + revert J. apply is_RInt_ext. intros x _. unfold dF. match goal with |- ?l = ?r => change ((l : R) = (r : R)) end. field. lra.
    + rewrite Rplus_0_l, <- Wn_S. field. lra.
Qed.
Definition cs_val (n : nat) : R := 2 ^ (2 * n - 1) / PI * (INR (fact n) * INR (fact n)) / INR (fact (2 * n)).
Lemma EvalCs_nat tgamma n : gamma_factorial tgamma -> (1 <= n)%nat -> EvalCs tgamma (INR n) = cs_val n.
Proof.
  intros G N. unfold EvalCs, cs_val. replace (2 * INR n + 1) with (INR (2 * n) + 1) by (rewrite mult_INR; cbn; ring). rewrite !G.
  replace (2 * INR n - 1) with (INR (2 * n - 1)) by (rewrite minus_INR, mult_INR by lia; cbn; ring). rewrite Rpower_pow by lra. reflexivity.
Qed.
Lemma cs_wallis n : (1 <= n)%nat -> cs_val n * Wn n = 1.
Proof.
  intros N. unfold cs_val, Wn. assert (INR (fact n) <> 0) by apply INR_fact_neq_0. assert (INR (fact (2 * n)) <> 0) by apply INR_fact_neq_0. pose proof PI_RGT_0.
  assert (E : 2 * 2 ^ (2 * n - 1) = 4 ^ n). { replace (2 * 2 ^ (2 * n - 1)) with (2 ^ S (2 * n - 1)) by reflexivity. replace (S (2 * n - 1)) with (2 * n)%nat by lia. rewrite pow_mult. f_equal. ring. }
  assert (4 ^ n <> 0) by (apply pow_nonzero; lra). rewrite <- E in *. field. repeat split; try assumption; try lra; apply pow_nonzero; lra.
Qed.
Lemma cs_S n : (1 <= n)%nat -> cs_val (S n) = cs_val n * ((2 * INR n + 2) / (2 * INR n + 1)).
Proof.
  intros N. pose proof (cs_wallis n N) as A. pose proof (cs_wallis (S n) ltac:(lia)) as B. pose proof (Wn_S n) as C. rewrite plus_INR in C. cbn [INR] in C.
  assert (W : Wn n <> 0) by (intros Z; rewrite Z in A; lra). assert (P : 0 <= INR n) by apply pos_INR.
  assert (V : Wn (S n) = (2 * INR n + 1) / (2 * (INR n + 1)) * Wn n). { apply Rmult_eq_reg_l with (INR n + 1); [|lra]. rewrite C. field. lra. }
  rewrite V in B. apply Rmult_eq_reg_r with ((2 * INR n + 1) / (2 * (INR n + 1)) * Wn n); [|apply Rmult_integral_contrapositive_currified; [apply Rgt_not_eq; apply Rdiv_lt_0_compat; lra|exact W]].
  rewrite B. transitivity (cs_val n * Wn n); [symmetry; exact A|]. field. lra.
Qed.
Lemma cs_1 : cs_val 1 = / PI.
Proof. unfold cs_val. cbn. field. apply PI_neq0. Qed.
Lemma cs_bounds n : (1 <= n)%nat -> / PI <= cs_val n <= INR n / PI.
Proof.
  pose proof PI_RGT_0. assert (IP : 0 < / PI) by (apply Rinv_0_lt_compat; lra). induction n as [|n IH]; intros N; [lia|]. destruct n as [|n]; [rewrite cs_1; cbn; lra|].
  specialize (IH ltac:(lia)). rewrite cs_S by lia. set (k := S n) in *. assert (K : 1 <= INR k) by (replace 1 with (INR 1) by reflexivity; apply le_INR; unfold k; lia).
  rewrite (S_INR k). assert (Q1 : 1 <= (2 * INR k + 2) / (2 * INR k + 1)) by (apply Rmult_le_reg_r with (2 * INR k + 1); [lra|]; unfold Rdiv; rewrite Rmult_assoc, Rinv_l by lra; lra).
  assert (Q2 : (2 * INR k + 2) / (2 * INR k + 1) <= (INR k + 1) / INR k). { apply Rmult_le_reg_r with ((2 * INR k + 1) * INR k); [nra|]. replace ((2 * INR k + 2) / (2 * INR k + 1) * ((2 * INR k + 1) * INR k)) with ((2 * INR k + 2) * INR k) by (field; lra). replace ((INR k + 1) / INR k * ((2 * INR k + 1) * INR k)) with ((INR k + 1) * (2 * INR k + 1)) by (field; lra). nra. }
  split; [nra|]. apply Rle_trans with (INR k / PI * ((INR k + 1) / INR k)); [apply Rmult_le_compat; lra|]. right. field. lra.
Qed.
