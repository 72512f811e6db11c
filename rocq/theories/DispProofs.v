(** Proofs for the dispersion solver *)
From Coq Require Import Reals List Lra Lia Psatz.
From Coquelicot Require Import Coquelicot.
From Verif Require Import DispModel DispSpec.
Import ListNotations.
Open Scope R_scope.

Lemma cosh_pos x : 0 < cosh x.
Proof. unfold cosh. pose proof (exp_pos x). pose proof (exp_pos (- x)). lra. Qed.
Lemma cosh_sq x : cosh x * cosh x = 1 + sinh x * sinh x.
Proof.
  unfold cosh, sinh. assert (E : exp x * exp (- x) = 1) by (rewrite <- exp_plus, Rplus_opp_r; apply exp_0). nra.
Qed.
Lemma tanh_cosh x : tanh x * cosh x = sinh x.
Proof. unfold tanh. pose proof (cosh_pos x). field. lra. Qed.
Lemma sech2 x : (1 - tanh x * tanh x) * (cosh x * cosh x) = 1.
Proof.
  replace ((1 - tanh x * tanh x) * (cosh x * cosh x)) with (cosh x * cosh x - (tanh x * cosh x) * (tanh x * cosh x)) by ring.
  rewrite tanh_cosh, cosh_sq. ring.
Qed.
Lemma D_sinh (x : R) : is_derive sinh x (cosh x).
Proof. apply is_derive_Reals. apply derivable_pt_lim_sinh. Qed.
Lemma D_cosh (x : R) : is_derive cosh x (sinh x).
Proof. apply is_derive_Reals. apply derivable_pt_lim_cosh. Qed.
Lemma D_tanh (x : R) : is_derive tanh x (1 - tanh x * tanh x).
Proof.
  pose proof (cosh_pos x) as P.
  assert (K : is_derive (fun t => sinh t / cosh t) x ((cosh x * cosh x - sinh x * sinh x) / (cosh x)^2)).
  { apply is_derive_div; [apply D_sinh|apply D_cosh|lra]. }
  replace (1 - tanh x * tanh x) with ((cosh x * cosh x - sinh x * sinh x) / (cosh x)^2); [exact K|].
  unfold tanh. field. lra.
Qed.
Lemma tanh_0 : tanh 0 = 0. Proof. unfold tanh. rewrite sinh_0. unfold Rdiv. ring. Qed.
Lemma sech_pos x : 0 < 1 - tanh x * tanh x.
Proof. pose proof (sech2 x). pose proof (cosh_pos x). nra. Qed.
Lemma tanh_incr a b : a < b -> tanh a < tanh b.
Proof.
  intros H. destruct (MVT_gen tanh a b (fun x => 1 - tanh x * tanh x)) as (c & _ & E).
  - intros; apply D_tanh.
  - intros x _. apply continuity_pt_filterlim. apply (ex_derive_continuous tanh x). eexists; apply D_tanh.
  - pose proof (sech_pos c). nra.
Qed.
Lemma tanh_le a b : a <= b -> tanh a <= tanh b.
Proof. intros [H|<-]; [left; apply tanh_incr; auto|right; auto]. Qed.
Lemma tanh_pos x : 0 < x -> 0 < tanh x.
Proof. intros. rewrite <- tanh_0. apply tanh_incr; auto. Qed.
Lemma tanh_nonneg x : 0 <= x -> 0 <= tanh x.
Proof. intros. rewrite <- tanh_0. apply tanh_le; auto. Qed.
Lemma tanh_lt1 x : tanh x < 1.
Proof. pose proof (sech_pos x). nra. Qed.
Lemma exp_ge x : 1 + x <= exp x.
Proof. apply exp_ineq1_le. Qed.
Lemma tanh_lower x : 0 <= x -> x <= (1 + x) * tanh x.
Proof.
  intros H. pose proof (cosh_pos x) as P.
  assert (x * cosh x <= (1 + x) * sinh x).
  { unfold cosh, sinh. pose proof (exp_ge (x + x)) as E. rewrite exp_plus in E.
    assert (F : exp x * exp (- x) = 1) by (rewrite <- exp_plus, Rplus_opp_r; apply exp_0).
    pose proof (exp_pos x). pose proof (exp_pos (- x)). nra. }
  rewrite <- tanh_cosh in H0. nra.
Qed.
Lemma sinh_ge x : 0 <= x -> x <= sinh x.
Proof.
  intros H. destruct (MVT_gen sinh 0 x cosh) as (c & _ & E).
  - intros; apply D_sinh.
  - intros y _. apply continuity_pt_filterlim. apply (ex_derive_continuous sinh y). eexists; apply D_sinh.
  - rewrite sinh_0 in E. pose proof (cosh_sq c). pose proof (cosh_pos c).
    assert (1 <= cosh c) by nra. nra.
Qed.
Lemma tanh_le_id x : 0 <= x -> tanh x <= x.
Proof.
  intros H. destruct (MVT_gen tanh 0 x (fun x => 1 - tanh x * tanh x)) as (c & _ & E).
  - intros; apply D_tanh.
  - intros y _. apply continuity_pt_filterlim. apply (ex_derive_continuous tanh y). eexists; apply D_tanh.
  - rewrite tanh_0 in E. nra.
Qed.

(** The function X tanh X and its derivative *)
Definition gf (X : R) : R := X * tanh X.
Definition gd (X : R) : R := tanh X + X * (1 - tanh X * tanh X).
Lemma D_gf (x : R) : is_derive gf x (gd x).
Proof.
  unfold gf, gd. replace (tanh x + x * (1 - tanh x * tanh x)) with (1 * tanh x + x * (1 - tanh x * tanh x)) by ring.
  apply (is_derive_mult (fun t : R => t) tanh x 1 (1 - tanh x * tanh x)); [apply (@is_derive_id R_AbsRing)|apply D_tanh|]. intros; apply Rmult_comm.
Qed.
Lemma mvt_g a b : exists c, Rmin a b <= c <= Rmax a b /\ gf b - gf a = gd c * (b - a).
Proof.
  destruct (MVT_gen gf a b gd) as (c & H & E).
  - intros; apply D_gf.
  - intros y _. apply continuity_pt_filterlim. apply (ex_derive_continuous gf y). eexists; apply D_gf.
  - exists c. auto.
Qed.
Lemma gd_up x : 0 <= x -> gd x <= 3 / 2.
Proof.
  intros H. unfold gd. pose proof (tanh_lt1 x). pose proof (sech2 x) as S. pose proof (cosh_sq x) as C. pose proof (sinh_ge x H).
  pose proof (sech_pos x). assert (1 + x * x <= cosh x * cosh x) by nra.
  assert (x * (1 - tanh x * tanh x) <= 1 / 2); [|lra].
  set (q := 1 - tanh x * tanh x) in *. assert (q * (1 + x * x) <= 1) by nra.
  assert (q * (2 * x) <= q * (1 + x * x)) by (apply Rmult_le_compat_l; [lra|pose proof (Rle_0_sqr (1 - x)) as Q; unfold Rsqr in Q; lra]). lra.
Qed.
Lemma gd_pos x : 0 < x -> 0 < gd x.
Proof. intros H. unfold gd. pose proof (tanh_pos x H). pose proof (sech_pos x). nra. Qed.
Lemma gd_tanh x : 0 <= x -> tanh x <= gd x.
Proof. intros H. unfold gd. pose proof (sech_pos x). nra. Qed.
Lemma gd_far x : 0 < x -> 1 <= gf x -> 1 <= gd x.
Proof. intros P H. unfold gf, gd in *. pose proof (tanh_pos x P). pose proof (tanh_lt1 x). pose proof (sech_pos x). set (q := 1 - tanh x * tanh x) in *.
  assert (tanh x * 1 <= tanh x * (tanh x + x * q)); [|nra]. assert (q <= x * tanh x * q) by nra. unfold q in *. nra. Qed.
Lemma gd_low x : 13 / 20 <= x -> 47 / 50 <= gd x.
Proof.
  intros H. unfold gd. pose proof (tanh_lower x ltac:(lra)). pose proof (tanh_lt1 x). pose proof (sech_pos x).
  assert (39 / 100 <= tanh x). { assert (13 / 20 <= (1 + 13 / 20) * tanh (13 / 20)) by (apply tanh_lower; lra). pose proof (tanh_le _ _ H). lra. }
  nra.
Qed.
Lemma gf_incr a b : 0 <= a -> a <= b -> gf a <= gf b.
Proof. intros H I. unfold gf. pose proof (tanh_le _ _ I). pose proof (tanh_nonneg a H). nra. Qed.
(** gd increases where X tanh X <= 1 *)
Definition gdd (x : R) : R := 2 * (1 - tanh x * tanh x) * (1 - x * tanh x).
Lemma D_gd (x : R) : is_derive gd x (gdd x).
Proof.
  unfold gd. pose proof (D_tanh x) as T.
  replace (gdd x) with ((1 - tanh x * tanh x) + (1 * (1 - tanh x * tanh x) + x * (0 - ((1 - tanh x * tanh x) * tanh x + tanh x * (1 - tanh x * tanh x))))) by (unfold gdd; ring).
  apply (is_derive_plus tanh (fun x => x * (1 - tanh x * tanh x)) x); [exact T|].
  apply (is_derive_mult (fun t : R => t) (fun x => 1 - tanh x * tanh x) x); [apply (@is_derive_id R_AbsRing)| |intros; apply Rmult_comm].
  apply (is_derive_minus (fun _ => 1) (fun x => tanh x * tanh x) x); [apply (@is_derive_const R_AbsRing)|].
  apply (is_derive_mult tanh tanh x); [exact T|exact T|]. intros; apply Rmult_comm.
Qed.
Lemma gd_incr a b : 0 <= a -> a <= b -> gf b <= 1 -> gd a <= gd b.
Proof.
  intros H I J. destruct (MVT_gen gd a b gdd) as (c & [K1 K2] & E).
  - intros; apply D_gd.
  - intros y _. apply continuity_pt_filterlim. apply (ex_derive_continuous gd y). eexists; apply D_gd.
  - rewrite Rmin_left in K1 by auto. rewrite Rmax_right in K2 by auto.
    assert (gf c <= 1) by (apply Rle_trans with (gf b); auto; apply gf_incr; lra). unfold gf in *.
    assert (0 <= gdd c). { unfold gdd. pose proof (sech_pos c). nra. } nra.
Qed.

(** ** Newton steps *)
Definition res (A X : R) : R := A - gf X.
Lemma step_eq A X : 0 < X -> newton_step A X = X + res A X / gd X.
Proof.
  intros H. pose proof (gd_pos X H). unfold newton_step, res, gf. change (- tanh X - X * (1 - tanh X * tanh X)) with (- tanh X - X * (1 - tanh X * tanh X)).
  replace (- tanh X - X * (1 - tanh X * tanh X)) with (- gd X) by (unfold gd; ring). field. lra.
Qed.
Lemma step_res A X : 0 < X -> exists c, Rmin X (newton_step A X) <= c <= Rmax X (newton_step A X) /\
  res A (newton_step A X) = res A X * (1 - gd c / gd X).
Proof.
  intros H. pose proof (gd_pos X H). destruct (mvt_g X (newton_step A X)) as (c & K & E). exists c. split; [exact K|].
  rewrite (step_eq A X H) in E |- *. replace (X + res A X / gd X - X) with (res A X / gd X) in E by ring.
  unfold res at 1. replace (gf (X + res A X / gd X)) with (gf X + gd c * (res A X / gd X)) by lra. unfold res. field. lra.
Qed.
Lemma step_ge A X : 0 < A -> A <= X -> A <= newton_step A X.
Proof.
  intros P H. assert (X0 : 0 < X) by lra. rewrite (step_eq A X X0). pose proof (gd_pos X X0) as G.
  destruct (Rle_dec 0 (res A X)) as [Hr|Hr].
  { assert (0 <= res A X / gd X) by (apply Rmult_le_pos; [auto|left; apply Rinv_0_lt_compat; auto]). lra. }
  assert (gd X * A <= gd X * (X + res A X / gd X)); [|nra].
  replace (gd X * (X + res A X / gd X)) with (gd X * X + res A X) by (field; lra).
  assert (gf X - A <= gd X * (X - A)); [|unfold res in *; nra].
  destruct (Rle_dec 1 (gf X)) as [F|F].
  - pose proof (gd_far X X0 F). unfold gf. pose proof (tanh_lt1 X). nra.
  - destruct (mvt_g A X) as (c & [K1 K2] & E). rewrite Rmin_left in K1 by auto. rewrite Rmax_right in K2 by auto.
    pose proof (gd_incr c X ltac:(lra) K2 ltac:(lra)). assert (gf A <= A) by (unfold gf; pose proof (tanh_lt1 A); nra). nra.
Qed.
(** A preserved invariant with a contracting residual makes the loop end *)
Lemma newton_unfold n A X : newton n A X = if Rlt_dec tol (Rabs (res A X)) then match n with O => None | S m => newton m A (newton_step A X) end else Some X.
Proof. destruct n; reflexivity. Qed.
Lemma newton_mono n : forall A X r, newton n A X = Some r -> forall m, (n <= m)%nat -> newton m A X = Some r.
Proof.
  induction n as [|n IH]; intros A X r H m L.
  - rewrite newton_unfold in *. destruct (Rlt_dec tol (Rabs (res A X))); [discriminate|exact H].
  - rewrite newton_unfold in H |- *. destruct (Rlt_dec tol (Rabs (res A X))); [|exact H].
    destruct m as [|m]; [lia|]. apply IH; auto. lia.
Qed.
Lemma newton_contract (A c : R) (Inv : R -> Prop) : 0 <= c ->
  (forall X, Inv X -> tol < Rabs (res A X) -> Inv (newton_step A X) /\ Rabs (res A (newton_step A X)) <= c * Rabs (res A X)) ->
  forall n X, Inv X -> c ^ n * Rabs (res A X) <= tol -> exists r, newton n A X = Some r /\ Inv r.
Proof.
  intros C H. induction n as [|n IH]; intros X I L.
  - rewrite newton_unfold. destruct (Rlt_dec tol (Rabs (res A X))) as [Q|Q]; [simpl in L; lra|]. exists X; auto.
  - rewrite newton_unfold. destruct (Rlt_dec tol (Rabs (res A X))) as [Q|Q]; [|exists X; auto].
    destruct (H X I Q) as (I' & B). apply IH; auto. cbn [pow] in L.
    apply Rle_trans with (c ^ n * (c * Rabs (res A X))); [|lra]. apply Rmult_le_compat_l; auto. apply pow_le; auto.
Qed.
Lemma tol_pos : 0 < tol. Proof. unfold tol. lra. Qed.
Lemma pow_small c r : 0 <= c < 1 -> 0 <= r -> exists n, c ^ n * r <= tol.
Proof.
  intros [C0 C1] H. pose proof tol_pos as T. destruct (pow_lt_1_zero c) with (y := tol / (1 + r)) as (n & N).
  - rewrite Rabs_pos_eq; auto.
  - apply Rdiv_lt_0_compat; lra.
  - exists n. specialize (N n (le_n n)). rewrite Rabs_pos_eq in N by (apply pow_le; auto).
    assert (c ^ n * (1 + r) <= tol). { apply Rlt_le. apply Rmult_lt_reg_r with (/ (1 + r)); [apply Rinv_0_lt_compat; lra|].
      rewrite Rmult_assoc, Rinv_r by lra. unfold Rdiv in N. lra. }
    assert (0 <= c ^ n) by (apply pow_le; auto). nra.
Qed.
Lemma ends_large A : 13 / 20 <= A -> exists n r, newton n A A = Some r /\ A <= r.
Proof.
  intros H. destruct (pow_small (3 / 5) (Rabs (res A A)) ltac:(lra) (Rabs_pos _)) as (n & N).
  destruct (newton_contract A (3 / 5) (fun X => A <= X)) with (n := n) (X := A) as (r & E & I); auto; try lra.
  - intros X I _. assert (I' := step_ge A X ltac:(lra) I). split; [exact I'|].
    destruct (step_res A X ltac:(lra)) as (c & [K1 K2] & E). rewrite E, Rabs_mult, Rmult_comm. apply Rmult_le_compat_r; [apply Rabs_pos|].
    assert (A <= c). { apply Rle_trans with (2 := K1). apply Rmin_glb; auto. }
    pose proof (gd_low c ltac:(lra)). pose proof (gd_up c ltac:(lra)). pose proof (gd_low X ltac:(lra)). pose proof (gd_up X ltac:(lra)).
    assert (Q : gd c / gd X * gd X = gd c) by (field; lra). set (q := gd c / gd X) in *. clearbody q.
    apply Rabs_le. split; nra.
  - eauto.
Qed.
Lemma exp_bound : exp (23 / 10) <= 13.
Proof.
  replace (23 / 10) with (1 + 1 + 3 / 10) by lra. rewrite !exp_plus. pose proof exp_le_3. pose proof (exp_pos 1). pose proof (exp_pos (3 / 10)).
  assert (exp (3 / 10) <= 10 / 7). { pose proof (exp_ge (- (3 / 10))). assert (exp (3 / 10) * exp (- (3 / 10)) = 1) by (rewrite <- exp_plus, Rplus_opp_r; apply exp_0). nra. }
  assert (exp 1 * exp 1 <= 9) by nra. nra.
Qed.
Lemma gf_115 X : 0 <= X -> X <= 23 / 20 -> gf X <= 1.
Proof.
  intros P H. apply Rle_trans with (gf (23 / 20)); [apply gf_incr; auto|]. unfold gf.
  assert (tanh (23 / 20) <= 20 / 23); [|lra]. pose proof (cosh_pos (23 / 20)) as C.
  assert (sinh (23 / 20) <= 20 / 23 * cosh (23 / 20)).
  { unfold sinh, cosh. pose proof exp_bound as B. replace (23 / 10) with (23 / 20 + 23 / 20) in B by lra. rewrite exp_plus in B.
    assert (F : exp (23 / 20) * exp (- (23 / 20)) = 1) by (rewrite <- exp_plus, Rplus_opp_r; apply exp_0).
    pose proof (exp_pos (23 / 20)). pose proof (exp_pos (- (23 / 20))). set (a := exp (23 / 20)) in *. set (b := exp (- (23 / 20))) in *. clearbody a b.
    assert (a <= 13 * b) by nra. lra. }
  rewrite <- tanh_cosh in H0. nra.
Qed.
Lemma first_step A : 0 < A -> A <= 13 / 20 -> newton_step A A <= A + 1 / 2.
Proof.
  intros P H. rewrite step_eq by auto. pose proof (gd_pos A P) as G. apply Rplus_le_compat_l.
  assert (res A A <= 1 / 2 * gd A).
  { unfold res, gf, gd. pose proof (tanh_lower A ltac:(lra)). pose proof (tanh_lt1 A). pose proof (tanh_pos A P). nra. }
  apply Rmult_le_reg_r with (gd A); auto. replace (res A A / gd A * gd A) with (res A A) by (field; lra). exact H0.
Qed.
Lemma ends_small A : 0 < A -> A < 13 / 20 -> exists n r, newton n A A = Some r /\ A <= r.
Proof.
  intros P H.
  destruct (Rlt_dec tol (Rabs (res A A))) as [Q|Q].
  2:{ exists O, A. rewrite newton_unfold. destruct (Rlt_dec tol (Rabs (res A A))); [contradiction|]. split; [auto|lra]. }
  set (Inv := fun X => A <= X /\ gf X <= 1 /\ res A X <= 0).
  assert (S0 : forall X, 0 < X -> gd X <> 0) by (intros X HX; pose proof (gd_pos X HX); lra).
  assert (I1 : Inv (newton_step A A)).
  { pose proof (step_ge A A P ltac:(lra)) as GE. assert (LE := first_step A P ltac:(lra)).
    assert (G1 : gf (newton_step A A) <= 1) by (apply gf_115; lra).
    repeat split; auto. destruct (step_res A A P) as (c & [K1 K2] & E). rewrite Rmin_left in K1 by auto. rewrite Rmax_right in K2 by auto.
    rewrite E. assert (0 <= res A A) by (unfold res, gf; pose proof (tanh_lt1 A); nra).
    assert (gd A <= gd c). { apply gd_incr; try lra. apply Rle_trans with (2 := G1). apply gf_incr; lra. }
    pose proof (gd_pos A P). assert (E1 : gd c / gd A * gd A = gd c) by (field; lra). set (q := gd c / gd A) in *. clearbody q. assert (1 <= q) by nra. nra. }
  pose proof (tanh_pos A P) as TA. pose proof (tanh_lt1 A) as TA1.
  destruct (pow_small (1 - tanh A / (3 / 2)) (Rabs (res A (newton_step A A))) ltac:(lra) (Rabs_pos _)) as (n & N).
  destruct (newton_contract A (1 - tanh A / (3 / 2)) Inv ltac:(lra)) with (n := n) (X := newton_step A A) as (r & E & I); auto.
  - intros X (I & J & K) _. assert (X0 : 0 < X) by lra. pose proof (gd_pos X X0) as G. pose proof (step_ge A X P I) as GE.
    assert (LE : newton_step A X <= X). { rewrite step_eq by auto. assert (0 <= (- res A X) / gd X) by (apply Rmult_le_pos; [lra|left; apply Rinv_0_lt_compat; auto]).
      unfold Rdiv in *. lra. }
    destruct (step_res A X X0) as (c & [K1 K2] & E). rewrite Rmin_right in K1 by auto. rewrite Rmax_left in K2 by auto.
    assert (gd c <= gd X) by (apply gd_incr; lra). assert (tanh A <= gd c) by (apply Rle_trans with (tanh c); [apply tanh_le; lra|apply gd_tanh; lra]).
    pose proof (gd_up X ltac:(lra)).
    assert (E1 : gd c / gd X * gd X = gd c) by (field; lra). set (q := gd c / gd X) in *. clearbody q.
    assert (q <= 1) by nra. assert (0 < q) by nra. assert (tanh A / (3 / 2) <= q) by nra.
    split.
    + repeat split; auto. { apply Rle_trans with (2 := J). apply gf_incr; lra. } rewrite E. nra.
    + rewrite E, Rabs_mult, Rmult_comm. apply Rmult_le_compat_r; [apply Rabs_pos|]. rewrite Rabs_pos_eq; lra.
  - exists (S n), r. rewrite newton_unfold. destruct (Rlt_dec tol (Rabs (res A A))); [|contradiction]. split; [exact E|]. apply I.
Qed.
Lemma newton_ends A : 0 <= A -> exists n r, newton n A A = Some r /\ A <= r.
Proof.
  intros [P|<-].
  - destruct (Rlt_dec A (13 / 20)); [apply ends_small|apply ends_large]; lra.
  - exists O, 0. rewrite newton_unfold. destruct (Rlt_dec tol (Rabs (res 0 0))) as [Q|Q]; [|split; [auto|lra]].
    unfold res, gf in Q. replace (0 - 0 * tanh 0) with 0 in Q by ring. rewrite Rabs_R0 in Q. pose proof tol_pos. lra.
Qed.
Lemma newton_exit n : forall A X r, newton n A X = Some r -> Rabs (A - r * tanh r) <= tol.
Proof.
  induction n as [|n IH]; intros A X r H; rewrite newton_unfold in H; unfold res, gf in H;
    destruct (Rlt_dec tol (Rabs (A - X * tanh X))) as [Q|Q]; try discriminate; try (injection H as <-; lra). eapply IH; eauto.
Qed.
(** every iterate from A stays at or above A *)
Lemma newton_ge n : forall A X r, 0 < A -> A <= X -> newton n A X = Some r -> A <= r.
Proof.
  induction n as [|n IH]; intros A X r P I H; rewrite newton_unfold in H; destruct (Rlt_dec tol (Rabs (res A X))) as [Q|Q]; try discriminate; try (injection H as <-; lra).
  exact (IH A (newton_step A X) r P (step_ge A X P I) H).
Qed.
(** ** Accuracy: gf determines its argument *)
Lemma gf_diff a b : 0 <= a -> a <= b -> (b - a) * tanh b <= gf b - gf a.
Proof. intros H I. unfold gf. pose proof (tanh_le _ _ I). pose proof (tanh_nonneg a H). nra. Qed.
Lemma gf_root A : 0 <= A -> exists X, 0 <= X /\ gf X = A.
Proof.
  intros H. destruct (IVT_gen gf 0 (A + 2) A) as (X & [K1 K2] & E).
  - intros x. apply continuity_pt_filterlim. apply (ex_derive_continuous gf x). eexists; apply D_gf.
  - assert (gf 0 = 0) by (unfold gf; ring). rewrite H0.
    assert (A <= gf (A + 2)). { unfold gf. pose proof (tanh_lower (A + 2) ltac:(lra)). pose proof (tanh_lt1 (A + 2)). nra. }
    split; [apply Rle_trans with 0; [apply Rmin_l|lra]|apply Rle_trans with (2 := Rmax_r _ _); lra].
  - rewrite Rmin_left in K1 by lra. eauto.
Qed.
Lemma gf_inj a b : 0 <= a -> 0 <= b -> gf a = gf b -> a = b.
Proof.
  assert (forall a b, 0 <= a -> 0 <= b -> a < b -> gf a = gf b -> False).
  { intros x y Hx Hy L E. pose proof (gf_diff x y Hx ltac:(lra)). pose proof (tanh_pos y ltac:(lra)). nra. }
  intros Ha Hb E. destruct (Rtotal_order a b) as [L|[L|L]]; auto; exfalso; eauto.
Qed.
Lemma root_small d : 0 <= d -> d * tanh d <= tol -> d <= 1 / 900.
Proof.
  intros H L. destruct (Rle_dec d (1 / 900)) as [Q|Q]; auto. exfalso.
  pose proof (gf_incr (1 / 900) d ltac:(lra) ltac:(lra)) as M. unfold gf in M. pose proof (tanh_lower (1 / 900) ltac:(lra)). unfold tol in L. lra.
Qed.
