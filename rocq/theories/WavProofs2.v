(** Proofs for the wave fields, part 2: closed forms of the queries *)
From Coq Require Import Reals List Lra Lia Psatz FunctionalExtensionality.
From Coquelicot Require Import Coquelicot.
From Verif Require Import GeoModel GeoSpec GeoProofs DispModel DispProofs WavModel WavSpec WavProofs.
Import ListNotations.
Open Scope R_scope.

Definition pt (A a : R) : C := (A * cos a, A * sin a).
Lemma pt_im A a : Im (pt A a) = A * sin a. Proof. reflexivity. Qed.
Lemma pt_re A a : Re (pt A a) = A * cos a. Proof. reflexivity. Qed.
Lemma celem_pt a t s r : (RtoC a * cexp (JJ * RtoC t) * RtoC s * RtoC r)%C = pt (a * s * r) t.
Proof. apply celem. Qed.

(** ** Regular *)
Lemma R_cel w x y fc : RComplexElevation w x y fc =
  pt (rw_height w * NWUsign fc * b_ramp (rw_b w)) (th (rw_k w) (rw_omega w) (rw_dir w) 0 x (flip_in fc y) (b_time (rw_b w))).
Proof. unfold RComplexElevation. rewrite celem_pt. unfold th. rewrite Rplus_0_r. reflexivity. Qed.
Definition cvel_form (cth sth om k A a s E D : R) : vec := V (cth * (om * (A * sin a) * E) * s) (sth * (om * (A * sin a) * E)) (- (om / k * D * (A * cos a))).
Definition cacc_form (cth sth om k A a s E D : R) : vec :=
  V (- om * (cth * (om * (A * cos a) * E) * s)) (- om * (sth * (om * (A * cos a) * E))) (- om * (om / k * D * (A * sin a))).
Lemma im_vx c om e E s : Im (RtoC c * (RtoC om * e * RtoC E) * RtoC s)%C = c * (om * Im e * E) * s.
Proof. destruct e as [a b]. cbn. ring. Qed.
Lemma re_vx c om e E s : Re (RtoC c * (RtoC om * e * RtoC E) * RtoC s)%C = c * (om * Re e * E) * s.
Proof. destruct e as [a b]. cbn. ring. Qed.
Lemma im_vy c om e E : Im (RtoC c * (RtoC om * e * RtoC E))%C = c * (om * Im e * E).
Proof. destruct e as [a b]. cbn. ring. Qed.
Lemma re_vy c om e E : Re (RtoC c * (RtoC om * e * RtoC E))%C = c * (om * Re e * E).
Proof. destruct e as [a b]. cbn. ring. Qed.
Lemma im_vz c e : Im (RtoC c * (- JJ * e))%C = - (c * Re e).
Proof. destruct e as [a b]. cbn. unfold Re. cbn. ring. Qed.
Lemma re_vz c e : Re (RtoC c * (- JJ * e))%C = c * Im e.
Proof. destruct e as [a b]. cbn. unfold Im. cbn. ring. Qed.
Lemma im_mjw om e : Im (- JJ * RtoC om * e)%C = - om * Re e.
Proof. destruct e as [a b]. cbn. unfold Re. cbn. ring. Qed.
Lemma R_cvel w cth sth cel x y z fc A a : rw_k w <> 0 -> cel x (flip_in fc y) fc = pt A a ->
  let eta := fun x y => Im (cel x y NWU) in
  let E := Eval5 (rw_vf w) eta x (flip_in fc y) (flip_in fc z) (rw_k w) (b_depth (rw_b w)) in
  let D := EvalDZ5 (rw_vf w) eta x (flip_in fc y) (flip_in fc z) (rw_k w) (b_depth (rw_b w)) in
  cvec_im (complex_velocity w cth sth cel x y z fc) = cvel_form cth sth (rw_omega w) (rw_k w) A a (NWUsign fc) E D /\
  cvec_im (cvec_scal (- JJ * RtoC (rw_omega w))%C (complex_velocity w cth sth cel x y z fc)) = cacc_form cth sth (rw_omega w) (rw_k w) A a (NWUsign fc) E D.
Proof.
  intros K H. cbn zeta. unfold complex_velocity, cvel_form, cacc_form. rewrite H. rewrite wk_form1 by exact K.
  unfold cvec_im, cvec_scal. cbn [cvx cvy cvz]. rewrite !im_mjw, im_vx, im_vy, im_vz, re_vx, re_vy, re_vz, pt_im, pt_re. split; reflexivity.
Qed.
Definition R_E (w : rwf) (x y z : R) : R := Eval5 (rw_vf w) (fun x y => RGetElevation w x y NWU) x y z (rw_k w) (b_depth (rw_b w)).
Definition R_D (w : rwf) (x y z : R) : R := EvalDZ5 (rw_vf w) (fun x y => RGetElevation w x y NWU) x y z (rw_k w) (b_depth (rw_b w)).
Lemma R_vel w x y z fc : rw_k w <> 0 ->
  let A := rw_height w * NWUsign fc * b_ramp (rw_b w) in
  let a := th (rw_k w) (rw_omega w) (rw_dir w) 0 x (flip_in fc (flip_in fc y)) (b_time (rw_b w)) in
  let E := R_E w x (flip_in fc y) (flip_in fc z) in let D := R_D w x (flip_in fc y) (flip_in fc z) in
  RGetVelocity w x y z fc = cvel_form (cos (rw_dir w)) (sin (rw_dir w)) (rw_omega w) (rw_k w) A a (NWUsign fc) E D /\
  RGetAcceleration w x y z fc = cacc_form (cos (rw_dir w)) (sin (rw_dir w)) (rw_omega w) (rw_k w) A a (NWUsign fc) E D.
Proof. intros K. apply (R_cvel w (cos (rw_dir w)) (sin (rw_dir w)) (RComplexElevation w) x y z fc); auto. apply R_cel. Qed.
Lemma flip_flip fc y : flip_in fc (flip_in fc y) = y. Proof. destruct fc; cbn; ring. Qed.
Lemma Eval5_none vf eta x y z k h : vf_kind vf = SNone -> Eval5 vf eta x y z k h = Ez (vf_inf vf) z k h.
Proof. intros H. unfold Eval5. rewrite H. reflexivity. Qed.
Lemma EvalDZ5_none vf eta x y z k h : vf_kind vf = SNone -> EvalDZ5 vf eta x y z k h = diffEz (vf_inf vf) z k h.
Proof. intros H. unfold EvalDZ5, EvalDZ3. rewrite H. reflexivity. Qed.
(** a regular field without stretching is one component *)
Lemma R_component s w t : rw_k w <> 0 -> vf_kind (rw_vf w) = SNone -> s_ramp s = None ->
  let h := if b_inf (rw_b w) then b_depth (rw_b w) else s_depth s in
  let f := fun (z : R) => Ez (vf_inf (rw_vf w)) z (rw_k w) h in let d := fun (z : R) => diffEz (vf_inf (rw_vf w)) z (rw_k w) h in
  let A := rw_height w * b_ramp (rw_b w) in
  let w' := R_update s w t in
  (forall x y, RGetElevation w' x y NWU = ceta A (rw_k w) (rw_omega w) (rw_dir w) 0 x y t) /\
  (forall x y z, RGetVelocity w' x y z NWU = cvel A (rw_k w) (rw_omega w) (rw_dir w) 0 f d x y z t) /\
  (forall x y z, RGetAcceleration w' x y z NWU = cacc A (rw_k w) (rw_omega w) (rw_dir w) 0 f d x y z t) /\
  (forall x y z, RGetPressure w' x y z NWU =
     cpre A (rw_k w) (rw_omega w) (rw_dir w) 0 f (b_dens (rw_b w) * b_grav (rw_b w) * (if b_inf (rw_b w) then 1 else tanh (rw_k w * h))) x y z t).
Proof.
  intros K N Rm. cbn zeta. set (h := if b_inf (rw_b w) then b_depth (rw_b w) else s_depth s). set (w' := R_update s w t).
  assert (E0 : forall x y, RComplexElevation w' x y NWU = pt (rw_height w * b_ramp (rw_b w)) (th (rw_k w) (rw_omega w) (rw_dir w) 0 x y t)).
  { intros x y. rewrite R_cel. unfold w', R_update, base_update. rewrite Rm. cbn [rw_height rw_b b_ramp b_time rw_k rw_omega rw_dir flip_in NWUsign]. rewrite Rmult_1_r. reflexivity. }
  assert (K' : rw_k w' <> 0) by exact K.
  split; [intros; unfold RGetElevation; rewrite E0; reflexivity|]. split; [|split].
  - intros x y z. destruct (R_vel w' x y z NWU K') as (-> & _). unfold cvel_form, cvel, R_E, R_D. rewrite Eval5_none, EvalDZ5_none by exact N.
    unfold w', R_update, base_update. rewrite Rm. cbn [rw_height rw_b b_ramp b_time rw_k rw_omega rw_dir rw_vf b_depth flip_in NWUsign]. fold h. apply vec_eq; cbn [vx vy vz]; ring.
  - intros x y z. destruct (R_vel w' x y z NWU K') as (_ & ->). unfold cacc_form, cacc, R_E, R_D. rewrite Eval5_none, EvalDZ5_none by exact N.
    unfold w', R_update, base_update. rewrite Rm. cbn [rw_height rw_b b_ramp b_time rw_k rw_omega rw_dir rw_vf b_depth flip_in NWUsign]. fold h. apply vec_eq; cbn [vx vy vz]; ring.
  - intros x y z. unfold RGetPressure, pressure. rewrite E0, Eval5_none by exact N. rewrite pt_im. unfold cpre.
    unfold w', R_update, base_update. cbn [rw_b b_inf b_dens b_grav rw_vf rw_k b_depth]. fold h. destruct (b_inf (rw_b w)); ring.
Qed.

(** ** Loops *)
Lemma collect_ok {A : Type} (f : nat -> option A) (g : nat -> A) n : forall i0, (forall i, (i0 <= i < i0 + n)%nat -> f i = Some (g i)) ->
  collect f i0 n = Some (map g (seq i0 n)).
Proof.
  induction n as [|n IH]; intros i0 H; cbn; [reflexivity|]. rewrite (H i0) by lia. cbn. rewrite IH by (intros; apply H; lia). reflexivity.
Qed.
Lemma loop_ok {A : Type} (f : A -> nat -> option A) (g : A -> nat -> A) n : forall i0 acc, (forall acc i, (i0 <= i < i0 + n)%nat -> f acc i = Some (g acc i)) ->
  loop f acc i0 n = Some (fold_left g (seq i0 n) acc).
Proof.
  induction n as [|n IH]; intros i0 acc H; cbn; [reflexivity|]. rewrite (H acc i0) by lia. cbn. rewrite IH by (intros; apply H; lia). reflexivity.
Qed.
Lemma at1_ok {A : Type} (l : list A) i d : (i < length l)%nat -> at1 l i = Some (nth i l d).
Proof. intros H. apply nth_error_nth'. exact H. Qed.
Lemma at2_ok {A : Type} (l : list (list A)) i j d : (i < length l)%nat -> (j < length (nth i l []))%nat -> at2 l i j = Some (nth j (nth i l []) d).
Proof. intros H J. unfold at2. rewrite (at1_ok l i []) by exact H. cbn. apply at1_ok. exact J. Qed.
Lemma at1_map {A : Type} (g : nat -> A) n i : (i < n)%nat -> at1 (map g (seq 0 n)) i = Some (g i).
Proof. intros H. unfold at1. rewrite nth_error_map. rewrite (nth_error_nth' _ 0%nat) by (rewrite seq_length; exact H). rewrite seq_nth by exact H. reflexivity. Qed.
Lemma at2_map {A : Type} (g : nat -> nat -> A) n m i j : (i < n)%nat -> (j < m)%nat -> at2 (map (fun i => map (g i) (seq 0 m)) (seq 0 n)) i j = Some (g i j).
Proof. intros H J. unfold at2. rewrite (at1_map (fun i => map (g i) (seq 0 m))) by exact H. cbn. apply at1_map. exact J. Qed.

(** ** Irregular *)
Definition qdir (w : iwq) (j : nat) : R := nth j (iq_dirs w) 0.
Definition qfreq (w : iwq) (i : nat) : R := nth i (iq_freqs w) 0.
Definition qk (w : iwq) (i : nat) : R := nth i (iq_ks w) 0.
Definition qamp (w : iwq) (j i : nat) : R := nth i (nth j (iq_amp w) []) 0.
Definition qphi (w : iwq) (j i : nat) : R := nth i (nth j (iq_phases w) []) 0.
Definition I_th (w : iwq) (j i : nat) (x y : R) : R := th (qk w i) (qfreq w i) (qdir w j) (qphi w j i) x y (b_time (iq_b w)).
Definition I_A (w : iwq) (fc : conv) (j i : nat) : R := qamp w j i * NWUsign fc * b_ramp (iq_b w).
Section Irr.
Variable w : iwq.
Hypothesis T : tables_fit w.
Lemma fit_at j i : (j < iq_nbDir w)%nat -> (i < iq_nbFreq w)%nat ->
  at1 (iq_dirs w) j = Some (qdir w j) /\ at1 (iq_freqs w) i = Some (qfreq w i) /\ at1 (iq_ks w) i = Some (qk w i) /\
  at1 (iq_amp w) j = Some (nth j (iq_amp w) []) /\ at1 (nth j (iq_amp w) []) i = Some (qamp w j i) /\
  at2 (iq_amp w) j i = Some (qamp w j i) /\ at2 (iq_phases w) j i = Some (qphi w j i).
Proof using T.
  intros Hj Hi. destruct T as (T1 & T2 & T3 & T4 & T5 & T6 & T7).
  assert (La : length (nth j (iq_amp w) []) = iq_nbFreq w) by (apply T5, nth_In; lia).
  assert (Lp : length (nth j (iq_phases w) []) = iq_nbFreq w) by (apply T7, nth_In; lia).
  unfold qdir, qfreq, qk, qamp, qphi.
  split; [apply at1_ok; lia|]. split; [apply at1_ok; lia|]. split; [apply at1_ok; lia|]. split; [apply at1_ok; lia|].
  split; [apply at1_ok; lia|]. split; apply at2_ok; lia.
Qed.
Lemma I_cel x y fc : IComplexElevation w x y fc =
  Some (map (fun j => map (fun i => pt (I_A w fc j i) (I_th w j i x (flip_in fc y))) (seq 0 (iq_nbFreq w))) (seq 0 (iq_nbDir w))).
Proof using T.
  unfold IComplexElevation. apply (collect_ok _ (fun j => map (fun i => pt (I_A w fc j i) (I_th w j i x (flip_in fc y))) (seq 0 (iq_nbFreq w)))).
  intros j Hj.
  destruct T as (T1 & T2 & T3 & T4 & T5 & T6 & T7). rewrite (at1_ok (iq_dirs w) j 0) by lia. cbn [bind]. rewrite (at1_ok (iq_amp w) j []) by lia. cbn [bind].
  apply collect_ok. intros i Hi. destruct (fit_at j i ltac:(lia) ltac:(lia)) as (F1 & F2 & F3 & F4 & F5 & F6 & F7).
  rewrite F3. cbn [bind]. rewrite F5. cbn [bind]. rewrite F7. cbn [bind]. rewrite F2. cbn [bind]. rewrite celem_pt. reflexivity.
Qed.
Definition I_eta_val (x y : R) (fc : conv) : R :=
  rs (seq 0 (iq_nbDir w)) (fun j => rs (seq 0 (iq_nbFreq w)) (fun i => I_A w fc j i * sin (I_th w j i x (flip_in fc y)))).
Lemma I_el x y fc : IGetElevation w x y fc = Some (I_eta_val x y fc).
Proof using T.
  unfold IGetElevation. rewrite I_cel. cbn [bind]. unfold sum_elevation.
  rewrite (loop_ok _ (fun acc j => acc + rs (seq 0 (iq_nbFreq w)) (fun i => I_A w fc j i * sin (I_th w j i x (flip_in fc y))))).
  - f_equal. rewrite (fold_rs (fun j => rs (seq 0 (iq_nbFreq w)) (fun i => I_A w fc j i * sin (I_th w j i x (flip_in fc y))))). unfold I_eta_val. apply Rplus_0_l.
  - intros acc j Hj. rewrite (loop_ok _ (fun acc i => acc + I_A w fc j i * sin (I_th w j i x (flip_in fc y)))).
    + f_equal. apply (fold_rs (fun i => I_A w fc j i * sin (I_th w j i x (flip_in fc y)))).
    + intros acc' i Hi. rewrite (at2_map (fun j i => pt (I_A w fc j i) (I_th w j i x (flip_in fc y)))) by lia. reflexivity.
Qed.
Lemma I_eta_ok x y : I_eta w x y = I_eta_val x y NWU.
Proof using T. unfold I_eta. rewrite I_el. reflexivity. Qed.
Definition I_E (i : nat) (x y z : R) : R := Eval5 (iq_vf w) (I_eta w) x y z (qk w i) (b_depth (iq_b w)).
Definition I_D (i : nat) (x y z : R) : R := EvalDZ5 (iq_vf w) (I_eta w) x y z (qk w i) (b_depth (iq_b w)).
Hypothesis K : forall i, (i < iq_nbFreq w)%nat -> qk w i <> 0.
Definition I_term (fc : conv) (x y z : R) (i j : nat) : cvec :=
  let e := pt (I_A w fc j i) (I_th w j i x (flip_in fc (flip_in fc y))) in
  let E := I_E i x (flip_in fc y) (flip_in fc z) in let D := I_D i x (flip_in fc y) (flip_in fc z) in
  CV (RtoC (cos (qdir w j)) * RtoC (qfreq w i) * e * RtoC E * RtoC (NWUsign fc))%C (RtoC (sin (qdir w j)) * RtoC (qfreq w i) * e * RtoC E)%C
     (- JJ / RtoC (qk w i) * RtoC (qfreq w i) * e * RtoC D)%C.
Definition cadd (a b : cvec) : cvec := CV (cvx a + cvx b)%C (cvy a + cvy b)%C (cvz a + cvz b)%C.
Lemma I_cvel x y z fc : IComplexVelocity w x y z fc =
  Some (map (fun i => fold_left (fun acc j => cadd acc (I_term fc x y z i j)) (seq 0 (iq_nbDir w)) (CV 0 0 0)) (seq 0 (iq_nbFreq w))).
Proof using T.
  unfold IComplexVelocity. rewrite I_cel. cbn [bind]. apply collect_ok. intros i Hi.
  destruct T as (T1 & T2 & T3 & T4 & T5 & T6 & T7). rewrite (at1_ok (iq_ks w) i 0) by lia. cbn [bind]. rewrite (at1_ok (iq_freqs w) i 0) by lia. cbn [bind].
  apply loop_ok. intros acc j Hj. destruct (fit_at j i ltac:(lia) ltac:(lia)) as (F1 & F2 & F3 & F4 & F5 & F6 & F7).
  rewrite F1. cbn [bind]. rewrite (at2_map (fun j i => pt (I_A w fc j i) (I_th w j i x (flip_in fc (flip_in fc y))))) by lia. cbn [bind]. reflexivity.
Qed.
Lemma cadd_im f l : forall a, cvec_im (fold_left (fun acc (j : nat) => cadd acc (f j)) l a) = vec_add (cvec_im a) (vs l (fun j => cvec_im (f j))).
Proof using. induction l as [|j l IH]; intros a; cbn [fold_left vs]; [symmetry; apply vec_add_0r|]. rewrite IH. rewrite <- vec_add_assoc. reflexivity. Qed.
Lemma cadd_scal c f l : forall a, cvec_scal c (fold_left (fun acc (j : nat) => cadd acc (f j)) l a) = fold_left (fun acc (j : nat) => cadd acc (cvec_scal c (f j))) l (cvec_scal c a).
Proof using. induction l as [|j l IH]; intros a; cbn [fold_left]; [reflexivity|]. rewrite IH. f_equal. unfold cvec_scal, cadd. cbn. f_equal; ring. Qed.
Definition I_vform (fc : conv) (x y z : R) (i j : nat) : vec :=
  cvel_form (cos (qdir w j)) (sin (qdir w j)) (qfreq w i) (qk w i) (I_A w fc j i) (I_th w j i x (flip_in fc (flip_in fc y))) (NWUsign fc)
    (I_E i x (flip_in fc y) (flip_in fc z)) (I_D i x (flip_in fc y) (flip_in fc z)).
Definition I_aform (fc : conv) (x y z : R) (i j : nat) : vec :=
  cacc_form (cos (qdir w j)) (sin (qdir w j)) (qfreq w i) (qk w i) (I_A w fc j i) (I_th w j i x (flip_in fc (flip_in fc y))) (NWUsign fc)
    (I_E i x (flip_in fc y) (flip_in fc z)) (I_D i x (flip_in fc y) (flip_in fc z)).
Lemma I_term_im fc x y z i j : (i < iq_nbFreq w)%nat -> cvec_im (I_term fc x y z i j) = I_vform fc x y z i j /\
  cvec_im (cvec_scal (- JJ * RtoC (qfreq w i))%C (I_term fc x y z i j)) = I_aform fc x y z i j.
Proof using K.
  intros Hi. unfold I_term, I_vform, I_aform, cvel_form, cacc_form. rewrite wk_form2 by (apply K; exact Hi).
  set (e := pt _ _). set (E := I_E _ _ _ _). set (D := I_D _ _ _ _).
  replace (RtoC (cos (qdir w j)) * RtoC (qfreq w i) * e * RtoC E * RtoC (NWUsign fc))%C with (RtoC (cos (qdir w j)) * (RtoC (qfreq w i) * e * RtoC E) * RtoC (NWUsign fc))%C by ring.
  replace (RtoC (sin (qdir w j)) * RtoC (qfreq w i) * e * RtoC E)%C with (RtoC (sin (qdir w j)) * (RtoC (qfreq w i) * e * RtoC E))%C by ring.
  unfold cvec_im, cvec_scal. cbn [cvx cvy cvz]. rewrite !im_mjw, im_vx, im_vy, im_vz, re_vx, re_vy, re_vz. unfold e. rewrite pt_im, pt_re. split; reflexivity.
Qed.
Lemma I_vel x y z fc :
  IGetVelocity w x y z fc = Some (vs (seq 0 (iq_nbFreq w)) (fun i => vs (seq 0 (iq_nbDir w)) (fun j => I_vform fc x y z i j))) /\
  IGetAcceleration w x y z fc = Some (vs (seq 0 (iq_nbFreq w)) (fun i => vs (seq 0 (iq_nbDir w)) (fun j => I_aform fc x y z i j))).
Proof using T K.
  assert (Z : cvec_im (CV 0 0 0) = V 0 0 0) by reflexivity.
  assert (Z2 : forall c, cvec_scal c (CV 0 0 0) = CV 0 0 0) by (intros c; unfold cvec_scal; cbn [cvx cvy cvz]; f_equal; ring).
  unfold IGetVelocity, IGetAcceleration. rewrite I_cvel. cbn [bind]. split.
  - rewrite (loop_ok _ (fun acc i => vec_add acc (vs (seq 0 (iq_nbDir w)) (fun j => I_vform fc x y z i j)))).
    + f_equal. rewrite (fold_vs (fun i => vs (seq 0 (iq_nbDir w)) (fun j => I_vform fc x y z i j))). apply vec_add_0.
    + intros acc i Hi. rewrite at1_map by lia. cbn [bind]. do 2 f_equal. rewrite cadd_im, Z, vec_add_0. apply vs_ext. intros j _. apply I_term_im. lia.
  - rewrite (loop_ok _ (fun acc i => vec_add acc (vs (seq 0 (iq_nbDir w)) (fun j => I_aform fc x y z i j)))).
    + f_equal. rewrite (fold_vs (fun i => vs (seq 0 (iq_nbDir w)) (fun j => I_aform fc x y z i j))). apply vec_add_0.
    + intros acc i Hi. destruct T as (T1 & T2 & T3 & T4 & T5 & T6 & T7). rewrite (at1_ok (iq_freqs w) i 0) by lia. cbn [bind]. rewrite at1_map by lia. cbn [bind].
      do 2 f_equal. rewrite cadd_scal, cadd_im, Z2, Z, vec_add_0. apply vs_ext. intros j _. change (nth i (iq_freqs w) 0) with (qfreq w i). apply I_term_im. lia.
Qed.
Definition I_pre_val (x y z : R) (fc : conv) : R :=
  rs (seq 0 (iq_nbFreq w)) (fun i => rs (seq 0 (iq_nbDir w)) (fun j =>
    b_dens (iq_b w) * b_grav (iq_b w) * (if b_inf (iq_b w) then 1 else tanh (qk w i * b_depth (iq_b w))) *
    (I_E i x (flip_in fc y) z * (I_A w fc j i * sin (I_th w j i x (flip_in fc y)))))).
Lemma I_pre x y z fc : IGetPressure w x y z fc = Some (I_pre_val x y z fc).
Proof using T.
  unfold IGetPressure.
  set (F := fun i => rs (seq 0 (iq_nbDir w)) (fun j => I_E i x (flip_in fc y) z * (if b_inf (iq_b w) then 1 else tanh (qk w i * b_depth (iq_b w))) * (I_A w fc j i * sin (I_th w j i x (flip_in fc y))))).
  rewrite (loop_ok _ (fun acc i => acc + F i)).
  - rewrite fold_rs. cbn [bind]. f_equal. rewrite Rplus_0_l. unfold I_pre_val. rewrite Rmult_assoc, Rmult_comm. rewrite <- rs_scal. apply rs_ext. intros i _.
    unfold F. rewrite <- rs_scal. apply rs_ext. intros j _. ring.
  - intros acc i Hi. destruct T as (T1 & T2 & T3 & T4 & T5 & T6 & T7). rewrite (at1_ok (iq_ks w) i 0) by lia. cbn [bind]. fold (qk w i).
    rewrite (loop_ok _ (fun acc j => acc + I_E i x (flip_in fc y) z * (if b_inf (iq_b w) then 1 else tanh (qk w i * b_depth (iq_b w))) * (I_A w fc j i * sin (I_th w j i x (flip_in fc y))))).
    + f_equal. apply (fold_rs (fun j => I_E i x (flip_in fc y) z * (if b_inf (iq_b w) then 1 else tanh (qk w i * b_depth (iq_b w))) * (I_A w fc j i * sin (I_th w j i x (flip_in fc y))))).
    + intros acc' j Hj. destruct (fit_at j i ltac:(lia) ltac:(lia)) as (F1 & F2 & F3 & F4 & F5 & F6 & F7).
      rewrite F1. cbn [bind]. rewrite F6. cbn [bind]. rewrite F7. cbn [bind]. rewrite F2. cbn [bind]. rewrite celem_pt, pt_im. reflexivity.
Qed.
End Irr.
