(** Lemmas for C39, C43, C61, C62 *)
From Coq Require Import Reals List Lra Lia Psatz Machin.
From Coquelicot Require Import Coquelicot.
From Verif Require Import GeoModel GeoSpec GeoProofs FunProofs DispModel DispSpec DispProofs WavModel WavSpec WavProofs WavProofs2.
Import ListNotations.
Open Scope R_scope.

(** ** Stretching *)
Lemma locally_lt (z a : R) : z < a -> locally z (fun s => s < a).
Proof. intros H. assert (P : 0 < a - z) by lra. exists (mkposreal _ P). intros y Y. unfold ball in Y. cbn in Y. unfold AbsRing_ball, abs, minus, plus, opp in Y. cbn in Y. apply Rabs_def2 in Y. lra. Qed.
Lemma locally_gt (z a : R) : a < z -> locally z (fun s => a < s).
Proof. intros H. assert (P : 0 < z - a) by lra. exists (mkposreal _ P). intros y Y. unfold ball in Y. cbn in Y. unfold AbsRing_ball, abs, minus, plus, opp in Y. cbn in Y. apply Rabs_def2 in Y. lra. Qed.
(** an affine function stays below / above locally *)
Lemma locally_aff_lt (p q e z : R) : p * z + q < e -> locally z (fun s => p * s + q < e).
Proof.
  intros H. assert (C : continuous (fun s => p * s + q) z). { apply (ex_derive_continuous (V := R_NormedModule)). auto_derive. exact I. }
  apply (C (fun v => v < e)). apply locally_lt. exact H.
Qed.
Lemma locally_aff_gt (p q e z : R) : e < p * z + q -> locally z (fun s => e < p * s + q).
Proof.
  intros H. assert (C : continuous (fun s => p * s + q) z). { apply (ex_derive_continuous (V := R_NormedModule)). auto_derive. exact I. }
  apply (C (fun v => e < v)). apply locally_gt. exact H.
Qed.
Lemma Ez_aff inf k h p q z : (inf = false -> sinh (k * h) <> 0) -> is_derive (fun s => Ez inf (p * s + q) k h) z (diffEz inf (p * z + q) k h * p).
Proof.
  intros H. replace (diffEz inf (p * z + q) k h * p) with (scal p (diffEz inf (p * z + q) k h)) by (unfold scal; cbn; unfold mult; cbn; ring).
  apply (is_derive_comp (fun s => Ez inf s k h)); [apply Ez_D; exact H|]. auto_derive; [exact I|]. ring.
Qed.
Lemma chak_D k h e z : is_derive (fun s => cosh (k * (s + h)) / e) z (k * sinh (k * (z + h)) / e).
Proof.
  unfold Rdiv. replace (k * sinh (k * (z + h)) * / e) with (scal (/ e) (scal (k) (sinh (k * (z + h))))) by (unfold scal; cbn; unfold mult; cbn; ring).
  apply is_derive_ext with (fun s => scal (/ e) (cosh (k * (s + h)))); [intros; unfold scal; cbn; unfold mult; cbn; ring|].
  apply (is_derive_scal (fun s => cosh (k * (s + h)))). apply (is_derive_comp cosh); [apply D_cosh|]. auto_derive; [exact I|]. ring.
Qed.
Lemma seg_D (inf : bool) (k h p q z : R) (zp : R -> R) : (inf = false -> sinh (k * h) <> 0) -> locally z (fun s => zp s = p * s + q) -> zp z = p * z + q ->
  (zp z < DBL_EPSILON -> is_derive (fun s => if Rlt_dec (zp s) DBL_EPSILON then Ez inf (zp s) k h else Ez inf 0 k h + k * zp s) z (diffEz inf (zp z) k h * p)) /\
  (DBL_EPSILON < zp z -> is_derive (fun s => if Rlt_dec (zp s) DBL_EPSILON then Ez inf (zp s) k h else Ez inf 0 k h + k * zp s) z (k * p)).
Proof.
  intros Sh L Z. split; intros B; rewrite Z in *.
  - apply is_derive_ext_loc with (fun s => Ez inf (p * s + q) k h); [|apply Ez_aff; exact Sh].
    generalize (filter_and _ _ L (locally_aff_lt p q DBL_EPSILON z B)). apply filter_imp. intros s [E1 E2]. rewrite E1. destruct (Rlt_dec _ _); [reflexivity|contradiction].
  - apply is_derive_ext_loc with (fun s => Ez inf 0 k h + k * (p * s + q)).
    + generalize (filter_and _ _ L (locally_aff_gt p q DBL_EPSILON z B)). apply filter_imp. intros s [E1 E2]. rewrite E1. destruct (Rlt_dec _ _); [lra|reflexivity].
    + auto_derive; [exact I|]. ring.
Qed.
Lemma Zp_delta_loc hd d e z : z <> - hd ->
  exists p q, locally z (fun s => Zp_delta hd d e s = p * s + q) /\ Zp_delta hd d e z = p * z + q /\ DZp_delta hd d e z = p.
Proof.
  intros N. unfold Zp_delta, DZp_delta. destruct (Rlt_dec (- hd) z) as [L|L].
  - exists ((hd + d * e) / (hd + e)), (hd * (hd + d * e) / (hd + e) - hd). spl.
    + generalize (locally_gt z (- hd) L). apply filter_imp. intros s Hs. change (UniformSpace.sort R_UniformSpace) with R in s. destruct (Rlt_dec (- hd) s); [unfold Rdiv; ring|contradiction].
    + unfold Rdiv; ring.
    + reflexivity.
  - exists 1, 0. assert (L' : z < - hd) by lra. spl.
    + generalize (locally_lt z (- hd) L'). apply filter_imp. intros s Hs. change (UniformSpace.sort R_UniformSpace) with R in s. destruct (Rlt_dec (- hd) s); [lra|ring].
    + ring.
    + reflexivity.
Qed.
Lemma Zp_hdelta_aff d e h z : Zp_hdelta d e z h = (h + d * e) / (h + e) * z + (h * (h + d * e) / (h + e) - h).
Proof. unfold Zp_hdelta, Rdiv. ring. Qed.

(** ** Angles *)
Lemma PI_close : 3.14 < PI < 3.142.
Proof.
  pose proof (PI_2_3_7_ineq 2) as [L _]. pose proof (PI_2_3_7_ineq 2) as [_ U].
  unfold sum_f_R0, tg_alt, PI_2_3_7_tg, Ratan_seq in L, U. cbn [pow INR Nat.mul Nat.add] in L, U. split; lra.
Qed.
Lemma Int_part_bounds a : IZR (Int_part a) <= a < IZR (Int_part a) + 1.
Proof. destruct (base_Int_part a). lra. Qed.
Lemma norm_range a m : 0 < m -> 0 <= a - m * IZR (Int_part (a / m)) < m.
Proof.
  intros M. destruct (Int_part_bounds (a / m)) as [L U].
  apply Rmult_le_compat_l with (r := m) in L; [|lra]. apply Rmult_lt_compat_l with (r := m) in U; [|exact M].
  replace (m * (a / m)) with a in * by (field; lra). lra.
Qed.
Lemma norm_id a m : 0 <= a < m -> a - m * IZR (Int_part (a / m)) = a.
Proof.
  intros [L U]. assert (M : 0 < m) by lra. assert (E : Int_part (a / m) = 0%Z).
  { destruct (Int_part_bounds (a / m)) as [L1 U1].
    assert (0 <= a / m) by (apply Rdiv_le_0_compat; lra). assert (a / m < 1) by (apply Rmult_lt_reg_r with m; [lra|]; unfold Rdiv; rewrite Rmult_assoc, Rinv_l; lra).
    assert (Int_part (a / m) < 1)%Z by (apply lt_IZR; lra). assert (-1 < Int_part (a / m))%Z by (apply lt_IZR; lra). lia. }
  rewrite E. ring.
Qed.
Definition turn (u : aunit) : R := match u with RAD => 2 * PI | DEG => 360 end.
Lemma same_refl u a : same_direction u a a.
Proof. exists 0%Z. ring. Qed.
Lemma same_shift u a n : same_direction u (a + IZR n * turn u) a.
Proof. exists n. reflexivity. Qed.
Lemma same_trans u a b c : same_direction u a b -> same_direction u b c -> same_direction u a c.
Proof. intros [n ->] [m ->]. exists (m + n)%Z. rewrite plus_IZR. ring. Qed.
Lemma same_sym u a b : same_direction u a b -> same_direction u b a.
Proof. intros [n ->]. exists (- n)%Z. rewrite opp_IZR. ring. Qed.
Lemma same_opp u a b : same_direction u a b -> same_direction u (- a) (- b).
Proof. intros [n ->]. exists (- n)%Z. rewrite opp_IZR. ring. Qed.
Lemma same_add u a b c : same_direction u a b -> same_direction u (a + c) (b + c).
Proof. intros [n ->]. exists n. ring. Qed.
Lemma same_deg a b : same_direction RAD a b -> same_direction DEG (a * RAD2DEG) (b * RAD2DEG).
Proof. intros [n ->]. exists n. unfold RAD2DEG. field. apply PI_neq0. Qed.
Lemma norm2pi_same a : same_direction RAD (Normalize_0_2PI a) a.
Proof. exists (- Int_part (a / (2 * PI)))%Z. unfold Normalize_0_2PI. rewrite opp_IZR. ring. Qed.
Lemma norm360_same a : same_direction DEG (Normalize_0_360 a) a.
Proof. exists (- Int_part (a / 360))%Z. unfold Normalize_0_360. rewrite opp_IZR. ring. Qed.
Lemma norm2pi_range a : 0 <= Normalize_0_2PI a < 2 * PI.
Proof. apply norm_range. pose proof PI_RGT_0. lra. Qed.
Lemma norm360_range a : 0 <= Normalize_0_360 a < 360.
Proof. apply norm_range. lra. Qed.
Definition rad_in (a : R) (u : aunit) : R := match u with DEG => a * DEG2RAD | RAD => a end.
Definition conv_in (a : R) (fc : conv) (dc : dconv) : R :=
  let a := match fc with NED => - a | NWU => a end in match dc with COMEFROM => a - PI | GOTO => a end.
Lemma wave_angle_same inp a u fc dc : same_direction RAD (wave_angle inp a u fc dc) (conv_in (rad_in a u) fc dc).
Proof. unfold wave_angle, conv_in, rad_in. destruct inp; [apply norm2pi_same|apply same_refl]. Qed.
Lemma conv_twice a b fc dc : same_direction RAD a (conv_in b fc dc) -> same_direction RAD (conv_in a fc dc) b.
Proof.
  intros [n ->]. destruct fc, dc; cbn.
  - exists n. ring.
  - exists (n - 1)%Z. rewrite minus_IZR. ring.
  - exists (- n)%Z. rewrite opp_IZR. ring.
  - exists (- n)%Z. rewrite opp_IZR. ring.
Qed.
Lemma rad_deg a : rad_in a DEG * RAD2DEG = a.
Proof. unfold rad_in, DEG2RAD, RAD2DEG. field. apply PI_neq0. Qed.
Lemma same_cos a b : same_direction RAD a b -> cos a = cos b /\ sin a = sin b.
Proof.
  intros [n ->]. replace (b + IZR n * (2 * PI)) with (b + 2 * IZR n * PI) by ring.
  destruct (Z_le_gt_dec 0 n) as [P|N].
  - rewrite <- (Z2Nat.id n P), <- INR_IZR_INZ. split; [apply cos_period|apply sin_period].
  - assert (E : b + 2 * IZR n * PI = b + 2 * IZR n * PI) by reflexivity.
    set (m := Z.to_nat (- n)). assert (Em : IZR n = - INR m). { unfold m. rewrite INR_IZR_INZ, Z2Nat.id by lia. rewrite opp_IZR. ring. }
    rewrite Em. split.
    + rewrite <- (cos_period (b + 2 * - INR m * PI) m). f_equal. ring.
    + rewrite <- (sin_period (b + 2 * - INR m * PI) m). f_equal. ring.
Qed.

(** ** Optimised field *)
Lemma cexp_split a b : (cexp (- JJ * RtoC a) * cexp (JJ * RtoC b) = cexp (JJ * RtoC (b - a)))%C.
Proof.
  replace (- JJ * RtoC a)%C with (JJ * RtoC (- a))%C by (rewrite RtoC_opp; ring). rewrite !cexp_J. unfold Cmult. cbn. unfold Rminus. rewrite cos_plus, sin_plus. f_equal; ring.
Qed.
Lemma internal_elevation o x y fc : ROComplexElevation (InternalUpdate o) x y fc = RComplexElevation (ro_w o) x y fc.
Proof.
  unfold ROComplexElevation, RComplexElevation, InternalUpdate. cbn [ro_w ro_exp ro_cos ro_sin]. set (kd := x * _ + _).
  rewrite <- cexp_split. rewrite !RtoC_mult.
  replace (- JJ * RtoC (rw_omega (ro_w o)) * RtoC (b_time (rw_b (ro_w o))))%C with (- JJ * (RtoC (rw_omega (ro_w o)) * RtoC (b_time (rw_b (ro_w o)))))%C by ring.
  replace (JJ * RtoC (rw_k (ro_w o)) * RtoC kd)%C with (JJ * (RtoC (rw_k (ro_w o)) * RtoC kd))%C by ring. ring.
Qed.
Lemma ro_w_op fuel inp o c : match ro_op fuel inp o c with Some o' => r_op fuel inp (ro_w o) c = Some (ro_w o') | None => r_op fuel inp (ro_w o) c = None end.
Proof.
  destruct c as [s p]. unfold ro_op. destruct p; cbn [snd fst]; try reflexivity; cbn [r_op];
  try (match goal with |- context [SetWavePeriod ?a ?b ?c ?d] => destruct (SetWavePeriod a b c d) as [w'|] end; reflexivity).
Qed.
Lemma ro_w_runs fuel inp l : forall o o', runs (ro_op fuel inp) o l = Some o' -> runs (r_op fuel inp) (ro_w o) l = Some (ro_w o').
Proof.
  induction l as [|c l IH]; intros o o' H; cbn [runs] in H |- *; [congruence|].
  pose proof (ro_w_op fuel inp o c) as E. destruct (ro_op fuel inp o c) as [o1|]; [|discriminate]. rewrite E. apply IH. exact H.
Qed.
Lemma runs_app {A B : Type} (f : A -> B -> option A) l1 : forall l2 a, runs f a (l1 ++ l2) = match runs f a l1 with Some b => runs f b l2 | None => None end.
Proof. induction l1 as [|b l1 IH]; intros l2 a; cbn; [reflexivity|]. destruct (f a b); [apply IH|reflexivity]. Qed.
Lemma sinh_pos' x : 0 < x -> 0 < sinh x.
Proof. intros H. pose proof (sinh_ge x). lra. Qed.
Lemma cosh_lt a b : 0 <= a -> a < b -> cosh a < cosh b.
Proof.
  intros A B. pose proof (sinh_lt a b B). pose proof (sinh_ge a A). pose proof (cosh_pos a). pose proof (cosh_pos b). pose proof (cosh_sq a). pose proof (cosh_sq b).
  apply Rnot_le_lt. intros L. nra.
Qed.
Lemma sin360 : 0 < sin 360 \/ sin 360 < 0.
Proof.
  pose proof PI_close as P. left. (* 360 = 114 pi + r, 0 < r < pi *)
  replace 360 with (360 - 114 * PI + 2 * INR 57 * PI) by (rewrite INR_IZR_INZ; cbn; ring). rewrite sin_period. apply sin_gt_0; lra.
Qed.
