(** Reading the tables of a file *)
From Coq Require Import Reals List Bool ZArith Lra Lia Arith.
From Coquelicot Require Import Complex.
From Verif Require Import GeoModel GeoSpec GeoProofs BodyModel BodySpec MeshModel MeshSpec SigSpec EqfModel SeaModel SeaProofs6 WavModel FloModel RadModel RadSpec RadProofs RadProofs5 RadProofs7 ExcModel ExcSpec ExcProofs ExcProofs2.
Import ListNotations.
Open Scope R_scope.

Lemma filter_len {A : Type} (f : A -> bool) : forall l, (length (filter f l) <= length l)%nat.
Proof. induction l as [|a l IH]; [cbn; lia|]. cbn [filter]. destruct (f a); cbn [length]; lia. Qed.
Lemma lset_ok {A : Type} (a : A) : forall l i, (i < length l)%nat -> exists l', lset l i a = Ok l' /\ length l' = length l /\ nth_error l' i = Some a /\ forall j, j <> i -> nth_error l' j = nth_error l j.
Proof.
  induction l as [|b l IH]; intros i Hi; [cbn in Hi; lia|]. destruct i as [|i].
  - exists (a :: l). repeat split. intros [|j] H; [congruence|reflexivity].
  - cbn [lset]. destruct (IH i ltac:(cbn in Hi; lia)) as (l' & E & L & N & O). rewrite E. cbn [rbind]. exists (b :: l'). split; [reflexivity|]. split; [cbn [length]; congruence|]. split; [exact N|].
    intros [|j] H; [reflexivity|]. cbn [nth_error]. apply O. congruence.
Qed.
Lemma re_cmul x z : Re (RtoC x * z)%C = x * Re z.
Proof. destruct z as [a b]. unfold RtoC, Cmult, Re. cbn [fst snd]. ring. Qed.
Lemma im_cmul x z : Im (RtoC x * z)%C = x * Im z.
Proof. destruct z as [a b]. unfold RtoC, Cmult, Im. cbn [fst snd]. ring. Qed.
Lemma cfold_parts {A : Type} (m : A -> R) (data : A -> C) : forall l z, fold_left Cplus (map (fun j => (RtoC (m j) * data j)%C) l) z =
  (fold_left Rplus (map (fun j => m j * Re (data j)) l) (Re z), fold_left Rplus (map (fun j => m j * Im (data j)) l) (Im z)).
Proof.
  induction l as [|j l IH]; intros z; [destruct z; reflexivity|]. cbn [map fold_left]. rewrite IH. f_equal; f_equal.
  - rewrite <- re_cmul. destruct z, (RtoC (m j) * data j)%C; reflexivity.
  - rewrite <- im_cmul. destruct z, (RtoC (m j) * data j)%C; reflexivity.
Qed.
Definition masked (mask : nat -> Z) (T : coefs) (a : nat) (m : cmat) (nf : nat) : Prop :=
  cm_rows m = 6%nat /\ cm_cols m = nf /\ forall i f, (i < 6)%nat -> cm_at m i f = spread mask T a i f.
Lemma mask_cmul_ok mask m m0 nf (T : coefs) a : SetMask m0 mask = Ok m -> binary mask ->
  exists M, mask_cmul m (file_table (length (active mask)) nf T a) = Ok M /\ masked mask T a M nf.
Proof.
  intros E B. destruct (setmask_spec m0 mask B) as (m' & E' & N & _ & _ & X). rewrite E in E'. inversion E'; subst m'. unfold mask_cmul, file_table. cbn [cm_rows cm_cols cm_at].
  rewrite N, Nat.eqb_refl. eexists. split; [reflexivity|]. split; [reflexivity|]. split; [reflexivity|]. intros i f Hi. cbn [cm_at].
  rewrite cfold_parts. cbn [Re Im fst snd]. unfold mask_mul in X. rewrite N in X.
  change (Re (RtoC 0)) with 0. change (Im (RtoC 0)) with 0.
  rewrite (X (fun j f => Re (T a j f)) i f Hi), (X (fun j f => Im (T a j f)) i f Hi). unfold spread. destruct (Z.eqb (mask i) 1); [destruct (T a (rank mask i) f)|]; reflexivity.
Qed.

Record sized_body (d : xdb) (m : dofmask) (modes : list bmode) (b : xbody) : Prop := SB {
  sb_mask : xb_mask b = m; sb_modes : xb_modes b = modes; sb_d : length (xb_diff b) = NbDir d; sb_k : length (xb_fk b) = NbDir d; sb_e : length (xb_exc b) = NbDir d }.
Lemma read_ok d mask m m0 modes D K : SetMask m0 mask = Ok m -> binary mask ->
  let fd := file_table (length (active mask)) (NbFreq d) D in let fk := file_table (length (active mask)) (NbFreq d) K in
  forall n i b, (i + n = NbDir d)%nat -> sized_body d m modes b -> exists b', read_dirs d fd fk b i n = Ok b' /\ sized_body d m modes b' /\
    (forall a, (a < i)%nat -> nth_error (xb_diff b') a = nth_error (xb_diff b) a /\ nth_error (xb_fk b') a = nth_error (xb_fk b) a) /\
    forall a, (i <= a < NbDir d)%nat -> exists M1 M2, nth_error (xb_diff b') a = Some M1 /\ masked mask D a M1 (NbFreq d) /\ nth_error (xb_fk b') a = Some M2 /\ masked mask K a M2 (NbFreq d).
Proof.
  intros E B fd fk. induction n as [|n IH]; intros i b Hn S0; [exists b; split; [reflexivity|]; split; [exact S0|]; split; [intros; split; reflexivity|intros; lia]|].
  cbn [read_dirs]. destruct S0 as [S1 S2 S3 S4 S5]. rewrite S1.
  destruct (mask_cmul_ok mask m m0 (NbFreq d) D i E B) as (M1 & Q1 & P1). fold fd in Q1. rewrite Q1. cbn [rbind]. unfold SetDiffraction, well_sized.
  destruct P1 as (R1 & C1 & V1). rewrite R1, C1, (proj2 (Nat.ltb_lt i (NbDir d))), !Nat.eqb_refl by lia. cbn [andb].
  destruct (lset_ok M1 (xb_diff b) i ltac:(lia)) as (l1 & L1 & N1 & O1 & U1). rewrite L1. cbn [rbind xb_mask].
  destruct (mask_cmul_ok mask m m0 (NbFreq d) K i E B) as (M2 & Q2 & P2). fold fk in Q2. rewrite S1, Q2. cbn [rbind]. unfold SetFroudeKrylov, well_sized.
  destruct P2 as (R2 & C2 & V2). rewrite R2, C2, (proj2 (Nat.ltb_lt i (NbDir d))), !Nat.eqb_refl by lia. cbn [andb xb_fk].
  destruct (lset_ok M2 (xb_fk b) i ltac:(lia)) as (l2 & L2 & N2 & O2 & U2). rewrite L2. cbn [rbind].
  destruct (IH (S i) (XB m (xb_modes b) l1 l2 (xb_exc b)) ltac:(lia)) as (b' & Eb & Sb & Pb & Fb).
  { constructor; cbn [xb_mask xb_modes xb_diff xb_fk xb_exc]; congruence. }
  exists b'. split; [exact Eb|]. split; [exact Sb|]. cbn [xb_diff xb_fk] in Pb. split.
  - intros a Ha. destruct (Pb a ltac:(lia)) as [A1 A2]. rewrite A1, A2, U1, U2 by lia. split; reflexivity.
  - intros a Ha. destruct (Nat.eq_dec a i) as [->|Hne]; [|apply Fb; lia]. destruct (Pb i ltac:(lia)) as [A1 A2]. rewrite A1, A2, O1, O2. exists M1, M2. repeat split; assumption.
Qed.
Lemma excite_ok mask D K nf diff fk : forall n i exc, (i + n <= length exc)%nat ->
  (forall a, (i <= a < i + n)%nat -> exists M1 M2, nth_error diff a = Some M1 /\ masked mask D a M1 nf /\ nth_error fk a = Some M2 /\ masked mask K a M2 nf) ->
  exists exc', excite diff fk exc i n = Ok exc' /\ length exc' = length exc /\ (forall a, (a < i)%nat -> nth_error exc' a = nth_error exc a) /\
    forall a, (i <= a < i + n)%nat -> exists M, nth_error exc' a = Some M /\ masked mask (tables_of Excitation D K) a M nf.
Proof.
  induction n as [|n IH]; intros i exc Hl H; [exists exc; split; [reflexivity|]; split; [reflexivity|]; split; [reflexivity|intros; lia]|]. cbn [excite].
  destruct (H i ltac:(lia)) as (M1 & M2 & E1 & (R1 & C1 & V1) & E2 & (R2 & C2 & V2)). rewrite (vat_some _ _ _ E1), (vat_some _ _ _ E2). cbn [rbind].
  unfold cadd. rewrite R1, R2, C1, C2, !Nat.eqb_refl. cbn [andb rbind].
  set (M := CM 6 nf (fun i0 j => (cm_at M1 i0 j + cm_at M2 i0 j)%C)). destruct (lset_ok M exc i ltac:(lia)) as (l & L & N & O & U). rewrite L. cbn [rbind].
  destruct (IH (S i) l ltac:(lia)) as (exc' & E & Le & P & F); [intros; apply H; lia|]. exists exc'. split; [exact E|]. split; [congruence|]. split.
  - intros a Ha. rewrite P, U by lia. reflexivity.
  - intros a Ha. destruct (Nat.eq_dec a i) as [->|Hne]; [|apply F; lia]. exists M. rewrite P by lia. split; [exact O|]. split; [reflexivity|]. split; [reflexivity|].
    intros j f Hj. unfold M. cbn [cm_at]. rewrite V1, V2 by exact Hj. unfold spread, tables_of. destruct (Z.eqb (mask j) 1); [reflexivity|]. apply injective_projections; cbn; ring.
Qed.
Lemma xinit_sized mem d m modes : modes <> [] -> exists b0, XInitialize mem d (XB m modes [] [] []) = Ok b0 /\ sized_body d m modes b0.
Proof.
  intros H. unfold XInitialize. cbn [xb_modes]. destruct modes as [|a l]; [congruence|]. eexists. split; [reflexivity|].
  constructor; cbn [xb_mask xb_modes xb_diff xb_fk xb_exc app]; try reflexivity; rewrite map_length, seq_length; reflexivity.
Qed.
Lemma reader_ok d mask m m0 modes D K b0 : SetMask m0 mask = Ok m -> binary mask -> sized_body d m modes b0 ->
  exists xb, ExcitationReader d (file_table (length (active mask)) (NbFreq d) D) (file_table (length (active mask)) (NbFreq d) K) b0 = Ok xb /\
    xb_mask xb = m /\ xb_modes xb = modes /\ forall k, holds k d xb 6 (spread mask (tables_of k D K)).
Proof.
  intros E B S0. unfold ExcitationReader. destruct (read_ok d mask m m0 modes D K E B (NbDir d) 0%nat b0 eq_refl S0) as (b1 & E1 & S1 & _ & F). rewrite E1. cbn [rbind].
  unfold ComputeExcitation. destruct S1 as [T1 T2 T3 T4 T5].
  destruct (excite_ok mask D K (NbFreq d) (xb_diff b1) (xb_fk b1) (NbDir d) 0%nat (xb_exc b1)) as (l & L & _ & _ & FE); [lia|intros a Ha; apply F; lia|]. rewrite L. cbn [rbind].
  eexists. split; [reflexivity|]. cbn [xb_mask xb_modes]. split; [exact T1|]. split; [exact T2|]. intros k. split.
  - unfold GetNbForceMode. cbn [xb_mask]. rewrite T1. destruct (setmask_spec m0 mask B) as (m' & E' & N & _). rewrite E in E'. inversion E'. subst m'. rewrite N.
    unfold active. etransitivity; [apply filter_len|]. rewrite seq_length. lia.
  - intros a Ha. destruct (F a ltac:(lia)) as (M1 & M2 & A1 & (R1 & C1 & V1) & A2 & (R2 & C2 & V2)). destruct (FE a ltac:(lia)) as (M & A3 & (R3 & C3 & V3)).
    destruct k; cbn [the_list xb_diff xb_fk xb_exc tables_of]; eexists; (split; [eassumption|]); (split; [assumption|]); (split; [assumption|]); intros i j Hi _; auto.
Qed.
Lemma active_length mask : (length (active mask) <= 6)%nat.
Proof. unfold active. etransitivity; [apply filter_len|]. rewrite seq_length. lia. Qed.
Lemma loaded_holds d mask modes D K xb : binary mask -> loaded d mask modes D K xb ->
  GetNbForceMode xb = length (active mask) /\ xb_modes xb = modes /\ forall k, holds k d xb 6 (spread mask (tables_of k D K)).
Proof.
  intros B (nb & g & mem & m & b0 & E1 & E2 & E3). destruct (setmask_spec (new_mask nb g) mask B) as (m' & E' & N & _). rewrite E1 in E'. inversion E'. subst m'.
  assert (S0 : sized_body d m modes b0).
  { unfold XInitialize in E2. cbn [xb_modes] in E2. destruct modes as [|a l] eqn:Em; [discriminate|]. destruct (xinit_sized mem d m (a :: l)) as (b1 & F & S1); [discriminate|]. unfold XInitialize in F. cbn [xb_modes] in F. congruence. }
  destruct (reader_ok d mask m _ modes D K b0 E1 B S0) as (xb' & E4 & M & Mo & H). unfold NbFreq in E4. rewrite E3 in E4. inversion E4; subst xb'.
  split; [unfold GetNbForceMode; rewrite M; exact N|]. split; assumption.
Qed.
Lemma loaded_exists d mask modes D K : binary mask -> modes <> [] -> exists xb, loaded d mask modes D K xb.
Proof.
  intros B Hm. destruct (setmask_spec (new_mask 0 (fun _ => false)) mask B) as (m & E & _). destruct (xinit_sized (fun _ _ _ => RtoC 0) d m modes Hm) as (b0 & E0 & S0).
  destruct (reader_ok d mask m _ modes D K b0 E B S0) as (xb & E4 & _). exists xb. exists 0%nat, (fun _ => false), (fun _ _ _ => RtoC 0), m, b0. split; [exact E|]. split; [exact E0|exact E4].
Qed.
Lemma spread_all T a i f : (i < 6)%nat -> spread all_on T a i f = T a i f.
Proof. intros H. unfold spread, all_on, rank. cbn [Z.eqb Pos.eqb]. do 6 (destruct i as [|i]; [reflexivity|]). lia. Qed.
