(** Proofs for C75-C80: masks and window *)
From Coq Require Import Reals List Bool ZArith Lra Lia Arith FunctionalExtensionality.
From Verif Require Import GeoModel GeoSpec GeoProofs GeoProofs3 BodyModel SigModel SigSpec SigProofs SigProofs2 SigProps EqfModel SeaModel FloModel RadModel RadSpec RadProofs RadProofs2 RadProofs3.
Import ListNotations.
Open Scope R_scope.

(** ** Masks *)
Lemma six_cases (P : nat -> Prop) : P 0%nat -> P 1%nat -> P 2%nat -> P 3%nat -> P 4%nat -> P 5%nat -> forall i, (i < 6)%nat -> P i.
Proof. intros. destruct i as [|[|[|[|[|[|i]]]]]]; auto. lia. Qed.
Lemma fold6 {A : Type} (f : A -> nat -> A) s : fold_left f (seq 0 6) s = f (f (f (f (f (f s 0%nat) 1%nat) 2%nat) 3%nat) 4%nat) 5%nat.
Proof. reflexivity. Qed.
Lemma setmask_spec m mask : binary mask -> exists m', SetMask m mask = Ok m' /\ dm_nb m' = length (active mask) /\
  dm_list m' = dm_list m ++ active mask /\ (forall i, (i < 6)%nat -> dm_mask m' i = Z.eqb (mask i) 1) /\
  forall data i f, (i < 6)%nat -> mask_mul m' data i f = if Z.eqb (mask i) 1 then data (rank mask i) f else 0.
Proof.
  intros B. unfold SetMask.
  assert (Q : forallb (fun i => (Z.eqb (mask i) 0 || Z.eqb (mask i) 1)%bool) (seq 0 6) = true).
  { apply forallb_forall. intros i Hi. apply in_seq in Hi. destruct (B i ltac:(lia)) as [-> | ->]; reflexivity. }
  rewrite Q. clear Q. cbv zeta.
  set (st := fun (st : (nat -> nat -> R) * nat) i => if negb (Z.eqb (mask i) 0) then (upd_mat (fst st) i (snd st) 1, S (snd st)) else st).
  set (ls := fun (l : list nat) i => if Z.eqb (mask i) 1 then l ++ [i] else l).
  assert (S0 : forall x i, mask i = 0%Z -> st x i = x) by (intros x i E; unfold st; rewrite E; reflexivity).
  assert (S1 : forall x n i, mask i = 1%Z -> st (x, n) i = (upd_mat x i n 1, S n)) by (intros x n i E; unfold st; rewrite E; reflexivity).
  assert (L0 : forall x i, mask i = 0%Z -> ls x i = x) by (intros x i E; unfold ls; rewrite E; reflexivity).
  assert (L1 : forall x i, mask i = 1%Z -> ls x i = x ++ [i]) by (intros x i E; unfold ls; rewrite E; reflexivity).
  clearbody st ls. rewrite !fold6. unfold active, rank. cbn [map seq fold_left filter].
  destruct (B 0%nat ltac:(lia)) as [E0|E0], (B 1%nat ltac:(lia)) as [E1|E1], (B 2%nat ltac:(lia)) as [E2|E2],
           (B 3%nat ltac:(lia)) as [E3|E3], (B 4%nat ltac:(lia)) as [E4|E4], (B 5%nat ltac:(lia)) as [E5|E5];
    (rewrite ?(S0 _ 0%nat E0), ?(S1 _ _ 0%nat E0), ?(S0 _ 1%nat E1), ?(S1 _ _ 1%nat E1), ?(S0 _ 2%nat E2), ?(S1 _ _ 2%nat E2),
             ?(S0 _ 3%nat E3), ?(S1 _ _ 3%nat E3), ?(S0 _ 4%nat E4), ?(S1 _ _ 4%nat E4), ?(S0 _ 5%nat E5), ?(S1 _ _ 5%nat E5),
             ?(L0 _ 0%nat E0), ?(L1 _ 0%nat E0), ?(L0 _ 1%nat E1), ?(L1 _ 1%nat E1), ?(L0 _ 2%nat E2), ?(L1 _ 2%nat E2),
             ?(L0 _ 3%nat E3), ?(L1 _ 3%nat E3), ?(L0 _ 4%nat E4), ?(L1 _ 4%nat E4), ?(L0 _ 5%nat E5), ?(L1 _ 5%nat E5));
    rewrite E0, E1, E2, E3, E4, E5; cbn [Z.eqb Pos.eqb fst];
    match goal with |- context [Z.to_nat ?z] => let n := eval vm_compute in (Z.to_nat z) in change (Z.to_nat z) with n end;
    eexists; (split; [reflexivity|]); cbn [dm_nb dm_list dm_mask]; (split; [reflexivity|]);
    (split; [rewrite ?app_nil_r, <- ?app_assoc; reflexivity|]); (split; [intros i Hi; destruct (Nat.ltb_spec i 6); [reflexivity|lia]|]);
    intros data i f Hi; revert i Hi; apply six_cases; unfold mask_mul, upd_mat; cbn [dm_nb dm_mat seq map filter fold_left Nat.eqb andb length];
    rewrite ?E0, ?E1, ?E2, ?E3, ?E4, ?E5; cbn [Z.eqb Pos.eqb filter length]; rewrite ?Rmult_0_l, ?Rmult_1_l, ?Rplus_0_l, ?Rplus_0_r; reflexivity.
Qed.

(** ** Default window *)
Lemma window_spec timeStep freq : (2 <= d_n freq)%nat -> d_min freq < d_max freq -> 0 < timeStep ->
  let Te := PI * INR (d_n freq - 1) / (d_max freq - d_min freq) in
  2 * timeStep <= Te -> Te < 4294967296 * timeStep ->
  exists dt N, GetImpulseResponseSize timeStep freq = Ok (Te, dt, Z.of_nat N) /\ timeStep < dt /\ (2 <= N)%nat /\
    INR N * timeStep <= Te < (INR N + 1) * timeStep /\ dt * INR (N - 1) = Te /\ capacity Te dt = (N - 1)%nat.
Proof.
  intros Hn Hf Ht Te H2 H32. unfold GetImpulseResponseSize, GetStep. destruct (Nat.leb_spec (d_n freq) 1); [lia|]. cbn [rbind].
  assert (Hk : 0 < INR (d_n freq - 1)) by (apply lt_0_INR; lia).
  set (st := (d_max freq - d_min freq) / INR (d_n freq - 1)).
  assert (Hst : 0 < st) by (apply Rmult_lt_0_compat; [lra|]; apply Rinv_0_lt_compat; lra).
  destruct (Req_EM_T st 0); [lra|]. destruct (Req_EM_T timeStep 0); [lra|].
  replace (/ 2 * (2 * PI) / st) with Te by (unfold Te, st; field; split; lra).
  destruct (base_Int_part (Te / timeStep)) as [I1 I2]. set (N := Int_part (Te / timeStep)) in *.
  assert (Q : Te / timeStep * timeStep = Te) by (field; lra).
  assert (Q2 : 2 <= Te / timeStep) by (apply Rmult_le_reg_r with timeStep; lra).
  assert (Q3 : Te / timeStep < 4294967296) by (apply Rmult_lt_reg_r with timeStep; lra).
  assert (N2 : (2 <= N)%Z). { assert (1 < IZR N) by lra. apply lt_IZR in H0. lia. }
  assert (N3 : (N < 4294967296)%Z). { apply lt_IZR. lra. }
  replace (Z.ltb N 0) with false by (symmetry; apply Z.ltb_ge; lia). replace (Z.leb 4294967296 N) with false by (symmetry; apply Z.leb_gt; lia). cbn [orb].
  rewrite Z.mod_small by lia. replace (Z.eqb (N - 1) 0) with false by (symmetry; apply Z.eqb_neq; lia).
  assert (IN : IZR (N - 1) = INR (Z.to_nat N - 1)). { rewrite INR_IZR_INZ. f_equal. lia. }
  assert (IN2 : IZR N = INR (Z.to_nat N)). { rewrite INR_IZR_INZ. f_equal. lia. }
  assert (P1 : 1 <= IZR (N - 1)) by (apply (IZR_le 1); lia).
  exists (Te / IZR (N - 1)), (Z.to_nat N). rewrite Z2Nat.id by lia. split; [reflexivity|].
  assert (TB : IZR N * timeStep <= Te < (IZR N + 1) * timeStep).
  { split; [rewrite <- Q; apply Rmult_le_compat_r; lra|rewrite <- Q; apply Rmult_lt_compat_r; lra]. }
  assert (Q4 : Te / IZR (N - 1) * IZR (N - 1) = Te) by (field; lra).
  split.
  - apply Rmult_lt_reg_r with (IZR (N - 1)); [lra|]. rewrite Q4. rewrite minus_IZR in *. lra.
  - split; [lia|]. rewrite <- IN, <- IN2. split; [exact TB|]. split; [exact Q4|].
    unfold capacity. replace (Te / (Te / IZR (N - 1))) with (IZR (N - 1)).
    + replace (Int_part (IZR (N - 1))) with (N - 1)%Z; [lia|].
      destruct (base_Int_part (IZR (N - 1))) as [J1 J2]. apply le_IZR in J1. assert (IZR (N - 1) < IZR (Int_part (IZR (N - 1)) + 1)) by (rewrite plus_IZR; lra). apply lt_IZR in H0. lia.
    + field. split; [lra|]. assert (0 < Te) by lra. lra.
Qed.
