(** Proofs for C75-C80: forward speed with any number of bodies, tables, mapper, sample cases *)
From Coq Require Import Reals List Bool ZArith Lra Lia Arith FunctionalExtensionality.
From Verif Require Import GeoModel GeoSpec GeoProofs BodyModel SigModel SigSpec SigProofs SigProofs2 SigProps EqfModel SeaModel SeaProofs6 FloModel RadModel RadSpec RadProofs RadProofs2 RadProofs3 RadProofs4 RadProofs6.
Import ListNotations.
Open Scope R_scope.

(** ** Forward speed *)
Lemma ku_sum h env recs r a w T A U :
  (forall j, In j (h_order h) -> recs j = Some (r j) /\ shows6 (r j) (a j) (w j) /\ forall i, (i < length (a j))%nat -> 0 <= nth i (a j) 0 <= T j) ->
  (forall i, In i (h_order h) -> kernels_ready h (bm_Ku (h_bem h i)) (fun _ => [4%nat; 5%nat]) T /\ bm_Ainf (h_bem h i) i = Some (A i)) ->
  exists v, ConvolutionKu h env recs U = Ok v /\ forall k, v k = total (map (fun i => total (map (fun j =>
     let pw := GetPerturbationAngularVelocityInFrame (fst (env j)) (snd (env j)) NWU in
     U * (total (map (fun d => convolution (kernel (the_table (bm_Ku (h_bem h i)) j d) k) (a j) (w j d)) [4%nat; 5%nat]) + A i k 2%nat * vy pw - A i k 1%nat * vz pw)) (h_order h))) (h_order h)).
Proof.
  intros H KU. unfold ConvolutionKu.
  apply (rsum_ok (h_order h) _ (fun i k => total (map (fun j => let pw := GetPerturbationAngularVelocityInFrame (fst (env j)) (snd (env j)) NWU in
     U * (total (map (fun d => convolution (kernel (the_table (bm_Ku (h_bem h i)) j d) k) (a j) (w j d)) [4%nat; 5%nat]) + A i k 2%nat * vy pw - A i k 1%nat * vz pw)) (h_order h)))).
  intros i Hi. destruct (KU i Hi) as [KR EA]. rewrite EA. cbn [of_option rbind].
  apply (rsum_ok (h_order h) _ (fun j k => let pw := GetPerturbationAngularVelocityInFrame (fst (env j)) (snd (env j)) NWU in
     U * (total (map (fun d => convolution (kernel (the_table (bm_Ku (h_bem h i)) j d) k) (a j) (w j d)) [4%nat; 5%nat]) + A i k 2%nat * vy pw - A i k 1%nat * vz pw))).
  intros j Hj. destruct (H j Hj) as (E & Sh & Ha). unfold rec_of. rewrite E. cbn [of_option rbind rsum].
  destruct (KR j 4%nat Hj) as (_ & t4 & N4 & K4); [left; reflexivity|].
  destruct (KR j 5%nat Hj) as (_ & t5 & N5 & K5); [right; left; reflexivity|].
  unfold GetIRFInterpolatorKu, vat. rewrite N4, N5. cbn [of_option rbind].
  destruct (convolve_spec t4 (T j) (r j) (a j) (w j) 4 K4 Sh ltac:(lia) Ha) as (c4 & -> & P4).
  destruct (convolve_spec t5 (T j) (r j) (a j) (w j) 5 K5 Sh ltac:(lia) Ha) as (c5 & -> & P5).
  cbn [rbind]. eexists. split; [reflexivity|]. intros k. unfold add6, scale6, zero6. rewrite P4, P5. cbn [map total]. unfold the_table. rewrite (nth_error_nth _ _ _ N4), (nth_error_nth _ _ _ N5). ring.
Qed.
(** The whole force on body i *)
Definition fleet_force (h : hdb) (A : nat -> mat6) (c : call) (a : nat -> list R) (w : nat -> nat -> list R) (i k : nat) : R :=
  memory_force h (bm_K (h_bem h i)) (fun j => GetListDOF (h_bem h j)) a w k +
  threshold_speed (fst (snd c i)) * total (map (fun i' => total (map (fun j =>
     let pw := GetPerturbationAngularVelocityInFrame (fst (snd c j)) (snd (snd c j)) NWU in
     total (map (fun d => convolution (kernel (the_table (bm_Ku (h_bem h i')) j d) k) (a j) (w j d)) [4%nat; 5%nat]) + A i' k 2%nat * vy pw - A i' k 1%nat * vz pw) (h_order h))) (h_order h)).
Lemma total_scale {B : Type} (f : B -> R) x : forall l, total (map (fun b => x * f b) l) = x * total (map f l).
Proof. induction l; cbn [map total]; [ring|rewrite IHl; ring]. Qed.
Lemma total_ext {B : Type} (f g : B -> R) : (forall b, f b = g b) -> forall l, total (map f l) = total (map g l).
Proof. intros H. induction l; cbn [map total]; [reflexivity|rewrite H, IHl; reflexivity]. Qed.
Lemma ForceOn_fleet h (c : call) recs r a w T A i : In i (h_order h) ->
  (forall j, In j (h_order h) -> recs j = Some (r j) /\ shows6 (r j) (a j) (w j) /\ forall n, (n < length (a j))%nat -> 0 <= nth n (a j) 0 <= T j) ->
  kernels_ready h (bm_K (h_bem h i)) (fun j => GetListDOF (h_bem h j)) T ->
  (forall i, In i (h_order h) -> kernels_ready h (bm_Ku (h_bem h i)) (fun _ => [4%nat; 5%nat]) T /\ bm_Ainf (h_bem h i) i = Some (A i)) ->
  ForceOn h (snd c) recs i = Ok (scale6 (-1) (let e := fst (snd c i) in let g := fleet_force h A c a w i in
         gen (ProjectVectorFrameInParent (ef_frame e) (GForce g) NWU) (ProjectVectorFrameInParent (ef_frame e) (GTorque g) NWU))).
Proof.
  intros Hi H KR KU. unfold ForceOn.
  destruct (conv_sum_ok h (bm_K (h_bem h i)) (fun j => GetListDOF (h_bem h j)) T recs r a w H KR) as (v & E & P).
  change (ConvolutionK h recs i) with (rsum (h_order h) (fun j => r0 <<- rec_of recs j; rsum (GetListDOF (h_bem h j)) (fun d => t <<- vat (bm_K (h_bem h i) j) d; Convolve t r0 d))).
  rewrite E. cbn [rbind]. set (u := GetFrameVelocityInFrame (fst (snd c i)) NWU). cbv zeta.
  destruct (Rlt_dec FLT_EPSILON (vdot u u)) as [L|L].
  - destruct (ku_sum h (snd c) recs r a w T A (vnorm u) H KU) as (v2 & -> & P2). cbn [rbind].
    replace (fleet_force h A c a w i) with (add6 v v2); [reflexivity|]. apply functional_extensionality. intros k. unfold add6, fleet_force, threshold_speed. fold u. cbv zeta.
    destruct (Rlt_dec FLT_EPSILON (vdot u u)); [|contradiction]. rewrite P, P2. f_equal. rewrite <- total_scale. apply total_ext. intros i'. cbv zeta. rewrite <- total_scale. reflexivity.
  - cbn [rbind]. replace (fleet_force h A c a w i) with v; [reflexivity|]. apply functional_extensionality. intros k. unfold fleet_force, threshold_speed. fold u. cbv zeta.
    destruct (Rlt_dec FLT_EPSILON (vdot u u)); [contradiction|]. rewrite P. ring.
Qed.
Lemma fleet_run h sysStep Te dt m0 calls A : sized (h_order h) m0 Te dt -> paced sysStep (h_order h) dt calls ->
  (forall i, In i (h_order h) -> kernels_ready h (bm_K (h_bem h i)) (fun j => GetListDOF (h_bem h j)) Te) ->
  (forall i, In i (h_order h) -> kernels_ready h (bm_Ku (h_bem h i)) (fun _ => [4%nat; 5%nat]) Te /\ bm_Ainf (h_bem h i) i = Some (A i)) ->
  exists m, rc_run h sysStep calls m0 = Ok m /\ forall i, In i (h_order h) -> exists c0 c f, calls = c0 ++ [c] /\ rd_force m i = Some f /\
    f = scale6 (-1) (let e := fst (snd c i) in let g := fleet_force h A c (ages_of Te dt calls) (vals_of Te dt calls) i in
         gen (ProjectVectorFrameInParent (ef_frame e) (GForce g) NWU) (ProjectVectorFrameInParent (ef_frame e) (GTorque g) NWU)).
Proof.
  intros SZ PC KR KU.
  destruct (run_general h sysStep Te dt (fun _ => True)
    (fun c calls i f => f = scale6 (-1) (let e := fst (snd c i) in let g := fleet_force h A c (ages_of Te dt calls) (vals_of Te dt calls) i in
         gen (ProjectVectorFrameInParent (ef_frame e) (GForce g) NWU) (ProjectVectorFrameInParent (ef_frame e) (GTorque g) NWU))) m0 SZ) with (calls := calls) as (m & E & _ & P); auto.
  - intros c cs _ Pc recs Hr i Hi. destruct (held_all sysStep (h_order h) m0 Te dt (cs ++ [c]) SZ Pc) as (_ & SH).
    eexists. split; [|reflexivity]. apply (ForceOn_fleet h c recs (fun j => rec_after (Te j) (dt j) (cs ++ [c]) j) _ _ Te A i Hi); [intros j Hj; split; [apply Hr; exact Hj|apply SH; exact Hj]|apply KR; exact Hi|exact KU].
  - apply List.Forall_forall. auto.
  - eauto.
Qed.

(** ** Tables made by the setters *)
Lemma inc_linspace a b n : a < b -> (2 <= n)%nat -> increasing (linspace a b n).
Proof.
  intros Hab Hn. unfold linspace. assert (Hs : 0 < (b - a) / INR (n - 1)) by (apply Rmult_lt_0_compat; [lra|]; apply Rinv_0_lt_compat; apply lt_0_INR; lia).
  set (s := (b - a) / INR (n - 1)) in *. clearbody s. generalize 0%nat. clear Hn. induction n as [|n IH]; intros k; [exact I|]. destruct n as [|n]; [exact I|].
  change (seq k (S (S n))) with (k :: S k :: seq (S (S k)) n). cbn [map increasing]. split.
  - rewrite S_INR. lra.
  - specialize (IH (S k)). exact IH.
Qed.
Lemma last_nth {A : Type} (d : A) : forall l, l <> [] -> last l d = nth (length l - 1) l d.
Proof. induction l as [|a l IH]; [congruence|]. intros _. destruct l as [|b l]; [reflexivity|]. change (last (a :: b :: l) d) with (last (b :: l) d). rewrite IH by discriminate. cbn [length]. replace (S (S (length l)) - 1)%nat with (S (S (length l) - 1)) by lia. reflexivity. Qed.
Lemma interpolated_node : forall xs ys i, increasing xs -> length ys = length xs -> (2 <= length xs)%nat -> (i < length xs)%nat -> interpolated xs ys (nth i xs 0) = nth i ys 0.
Proof.
  induction xs as [|a xs IH]; intros ys i Hi Hl H2 Hn; [cbn in H2; lia|]. destruct xs as [|b xs]; [cbn in H2; lia|].
  destruct ys as [|c [|d ys]]; try discriminate. destruct Hi as [Hab Hi].
  change (interpolated (a :: b :: xs) (c :: d :: ys) (nth i (a :: b :: xs) 0)) with (let x := nth i (a :: b :: xs) 0 in if Rle_dec x b then affine (a, c) (b, d) x else interpolated (b :: xs) (d :: ys) x). cbv zeta.
  destruct i as [|[|i]].
  - cbn [nth]. destruct (Rle_dec a b); [|lra]. unfold affine. cbn [fst snd]. field. lra.
  - cbn [nth]. destruct (Rle_dec b b); [|lra]. unfold affine. cbn [fst snd]. field. lra.
  - change (nth (S (S i)) (a :: b :: xs) 0) with (nth (S i) (b :: xs) 0).
    assert (Hb : b < nth (S i) (b :: xs) 0).
    { clear -Hi Hn. revert b Hi i Hn. induction xs as [|b' xs IH]; intros b Hi i Hn; [cbn [length] in Hn; lia|]. destruct Hi as [Hbb Hi]. destruct i; [exact Hbb|].
      specialize (IH b' Hi i). change (nth (S (S i)) (b :: b' :: xs) 0) with (nth (S i) (b' :: xs) 0). assert (b' < nth (S i) (b' :: xs) 0) by (apply IH; cbn [length] in *; lia). lra. }
    destruct (Rle_dec (nth (S i) (b :: xs) 0) b); [lra|]. change (nth (S (S i)) (c :: d :: ys) 0) with (nth (S i) (d :: ys) 0).
    apply IH; cbn [length] in *; try lia. exact Hi.
Qed.
Lemma irf_ok T n (IRF : list vec6) : 0 < T -> (2 <= n)%nat -> length IRF = n -> exists t, irf (SetTimeDiscretization T n) IRF = Ok t /\ kernel_table t T /\
  forall i k, (i < n)%nat -> kernel t k (INR i * (T / INR (n - 1))) = nth i IRF zero6 k.
Proof.
  intros HT Hn Hl. unfold irf, SetTimeDiscretization. cbn [d_n]. rewrite Hl, Nat.eqb_refl. eexists. split; [reflexivity|].
  assert (LL : length (GetVector (Disc 0 T n)) = n) by apply linspace_length.
  assert (IL : increasing (GetVector (Disc 0 T n))) by (apply inc_linspace; auto).
  assert (PL : 0 < INR (n - 1)) by (apply lt_0_INR; lia).
  split.
  - split; [cbn [i6_x i6_y]; congruence|]. cbn [i6_x]. split; [exact IL|]. split; [|split; [|rewrite LL; exact Hn]].
    + rewrite (nth_indep _ 1 0) by (rewrite LL; lia). unfold GetVector. cbn [d_min d_max d_n]. rewrite linspace_nth by lia. cbn [INR]. lra.
    + rewrite last_nth; [|intros Z; rewrite Z in LL; cbn in LL; lia]. rewrite LL. unfold GetVector. cbn [d_min d_max d_n]. rewrite linspace_nth by lia. right. field. lra.
  - intros i k Hi. unfold kernel. cbn [i6_x i6_y].
    replace (INR i * (T / INR (n - 1))) with (nth i (GetVector (Disc 0 T n)) 0) by (unfold GetVector; cbn [d_min d_max d_n]; rewrite linspace_nth by lia; field; lra).
    rewrite interpolated_node; [|exact IL|rewrite map_length; congruence|rewrite LL; exact Hn|rewrite LL; exact Hi].
    rewrite (nth_indep _ 0 (zero6 k)) by (rewrite map_length; lia). apply (map_nth (fun v : vec6 => v k)).
Qed.
Lemma irfs_ok T n : 0 < T -> (2 <= n)%nat -> forall l, List.Forall (fun m : list vec6 => length m = n) l -> exists ts, irfs (SetTimeDiscretization T n) l = Ok ts /\ length ts = length l /\
  forall d IRF, nth_error l d = Some IRF -> exists t, nth_error ts d = Some t /\ kernel_table t T /\ forall i k, (i < n)%nat -> kernel t k (INR i * (T / INR (n - 1))) = nth i IRF zero6 k.
Proof.
  intros HT Hn. induction 1 as [|m l Hm Hl IH].
  - exists []. split; [reflexivity|]. split; [reflexivity|]. intros d IRF E. destruct d; discriminate.
  - destruct (irf_ok T n m HT Hn Hm) as (t & Et & Kt & Vt). destruct IH as (ts & Es & Ls & Ps). cbn [irfs]. rewrite Et. cbn [rbind]. rewrite Es. cbn [rbind].
    exists (t :: ts). split; [reflexivity|]. split; [cbn [length]; congruence|]. intros [|d] IRF E; [|exact (Ps d IRF E)]. inversion E; subst. exists t. auto.
Qed.

(** ** Mapper *)
Lemma existsb_nat j l : existsb (Nat.eqb j) l = true <-> In j l.
Proof. rewrite existsb_exists. split; [intros (x & H & E); apply Nat.eqb_eq in E; subst; exact H|intros H; exists j; split; [exact H|apply Nat.eqb_refl]]. Qed.
Lemma map_keep m e0 e : maps_to m e -> fst (fst e) <> fst (fst e0) -> snd (fst e) <> snd (fst e0) -> maps_to (MapBody m (fst (fst e0)) (snd (fst e0)) (snd e0)) e.
Proof.
  destruct e as [[b o] f], e0 as [[b0 o0] f0]. cbn [fst snd]. intros (H1 & H2 & H3 & H4) Hb Ho. unfold maps_to, MGetBody, MGetBEMBody, MGetEquilibriumFrame, MGetEquilibriumFrameOf, MGetBEMBody, at_map, MapBody in *. cbn [mp_body mp_bem mp_eq].
  rewrite !fupd_other by auto. destruct (mp_bem m o) as [x|]; [|discriminate]. inversion H2; subst x. cbn [rbind] in *. rewrite fupd_other by auto. auto.
Qed.
Lemma map_new m b o f : maps_to (MapBody m b o f) (b, o, f).
Proof. unfold maps_to, MGetBody, MGetBEMBody, MGetEquilibriumFrame, MGetEquilibriumFrameOf, MGetBEMBody, at_map, MapBody. cbn [mp_body mp_bem mp_eq]. rewrite !fupd_same. cbn [rbind]. rewrite fupd_same. auto. Qed.
Lemma map_all : forall l m0, NoDup (map (fun e : nat * nat * nat => fst (fst e)) l) -> NoDup (map (fun e : nat * nat * nat => snd (fst e)) l) ->
  (forall e, In e l -> ~ In (fst (fst e)) (mp_keys m0)) ->
  let m := map_run l m0 in (forall e, In e l -> maps_to m e) /\ mp_keys m = mp_keys m0 ++ map (fun e => fst (fst e)) l /\
  (forall b, ~ In b (map (fun e => fst (fst e)) l) -> mp_body m b = mp_body m0 b /\ mp_eq m b = mp_eq m0 b) /\
  (forall o, ~ In o (map (fun e => snd (fst e)) l) -> mp_bem m o = mp_bem m0 o) /\
  (forall e, maps_to m0 e -> ~ In (fst (fst e)) (map (fun e => fst (fst e)) l) -> ~ In (snd (fst e)) (map (fun e => snd (fst e)) l) -> maps_to m e).
Proof.
  induction l as [|e l IH]; intros m0 N1 N2 HK.
  - cbn [map_run fold_left map]. rewrite app_nil_r. repeat split; intros; auto. destruct H.
  - cbn [map] in N1, N2. inversion N1 as [|? ? A1 B1]; subst. inversion N2 as [|? ? A2 B2]; subst.
    set (m1 := MapBody m0 (fst (fst e)) (snd (fst e)) (snd e)).
    assert (K1 : mp_keys m1 = mp_keys m0 ++ [fst (fst e)]).
    { unfold m1, MapBody. cbn [mp_keys]. destruct (existsb (Nat.eqb (fst (fst e))) (mp_keys m0)) eqn:X; [|reflexivity]. apply existsb_nat in X. exfalso. apply (HK e); [left; reflexivity|exact X]. }
    destruct (IH m1 B1 B2) as (P1 & P2 & P3 & P4 & P5).
    { intros e' H'. rewrite K1. intros X. apply in_app_or in X. destruct X as [X|[X|[]]]; [apply (HK e'); [right; auto|exact X]|]. apply A1. rewrite X. apply (in_map (fun e : nat * nat * nat => fst (fst e))). exact H'. }
    change (map_run (e :: l) m0) with (map_run l m1). cbv zeta in *. split; [|split; [|split; [|split]]].
    + intros e' [<-|H']; [|auto]. apply P5; [|exact A1|exact A2]. destruct e as [[b o] f]. apply map_new.
    + rewrite P2, K1. cbn [map]. rewrite <- app_assoc. reflexivity.
    + intros b Hb. cbn [map] in Hb. destruct (P3 b) as [Q1 Q2]; [intros X; apply Hb; right; exact X|]. rewrite Q1, Q2. unfold m1, MapBody. cbn [mp_body mp_eq]. rewrite !fupd_other; [auto| |]; intros ->; apply Hb; left; reflexivity.
    + intros o Ho. cbn [map] in Ho. rewrite P4 by (intros X; apply Ho; right; exact X). unfold m1, MapBody. cbn [mp_bem]. rewrite fupd_other; [reflexivity|]. intros ->. apply Ho. left. reflexivity.
    + intros e' M' Hb Ho. cbn [map] in Hb, Ho. apply P5; [|intros X; apply Hb; right; exact X|intros X; apply Ho; right; exact X]. apply map_keep; [exact M'| |]; intros X; [apply Hb|apply Ho]; left; symmetry; exact X.
Qed.
Lemma irfs_length d : forall l ts, irfs d l = Ok ts -> length ts = length l.
Proof. induction l as [|m l IH]; intros ts E; [inversion E; reflexivity|]. cbn [irfs] in E. destruct (rb_ok _ _ _ E) as (t & A & B). cbn beta in B. destruct (rb_ok _ _ _ B) as (ts' & C & F). inversion F; subst. cbn [length]. rewrite (IH _ C). reflexivity. Qed.
(** ** Initialize *)
Lemma init_recs Te dt : forall order (recs : nat -> option rec6), NoDup order -> (forall j, recs j = None) -> forall j, In j order ->
  fold_left (fun recs j => match recs j with Some _ => recs | None => fupd recs j (Some (newRec6 Te dt)) end) order recs j = Some (newRec6 Te dt).
Proof.
  set (step := fun (recs : nat -> option rec6) j => match recs j with Some _ => recs | None => fupd recs j (Some (newRec6 Te dt)) end).
  assert (K : forall order recs j r, recs j = Some r -> fold_left step order recs j = Some r).
  { induction order as [|j0 order IH]; intros recs j r E; [exact E|]. cbn [fold_left]. apply IH. unfold step. destruct (recs j0) eqn:E0; [exact E|]. rewrite fupd_other; [exact E|]. intros ->. congruence. }
  assert (G : forall order recs, (forall j, recs j = None \/ recs j = Some (newRec6 Te dt)) -> forall j, In j order -> fold_left step order recs j = Some (newRec6 Te dt)).
  { induction order as [|j0 order IH]; intros recs H j Hj; [destruct Hj|]. cbn [fold_left]. destruct Hj as [->|Hj].
    - apply K. unfold step. destruct (H j) as [E|E]; rewrite E; [apply fupd_same|exact E].
    - apply IH; [|exact Hj]. intros j'. unfold step. destruct (recs j0) eqn:E0; [apply H|]. destruct (Nat.eq_dec j' j0) as [->|D]; [rewrite fupd_same; auto|rewrite fupd_other; auto]. }
  intros order recs _ H j Hj. apply G; auto.
Qed.
(** ** Number of mappings *)
Lemma map_keys : forall l m, NoDup (mp_keys m) -> NoDup (mp_keys (map_run l m)) /\ forall b, In b (mp_keys (map_run l m)) <-> In b (mp_keys m) \/ In b (map (fun e => fst (fst e)) l).
Proof.
  induction l as [|e l IH]; intros m N; [split; [exact N|]; intros b; cbn [map_run fold_left map In]; tauto|].
  change (map_run (e :: l) m) with (map_run l (MapBody m (fst (fst e)) (snd (fst e)) (snd e))). set (m1 := MapBody m (fst (fst e)) (snd (fst e)) (snd e)).
  assert (K : NoDup (mp_keys m1) /\ forall b, In b (mp_keys m1) <-> In b (mp_keys m) \/ b = fst (fst e)).
  { unfold m1, MapBody. cbn [mp_keys]. destruct (existsb (Nat.eqb (fst (fst e))) (mp_keys m)) eqn:X.
    - apply existsb_nat in X. split; [exact N|]. intros b. split; [auto|intros [H| ->]; auto].
    - assert (X' : ~ In (fst (fst e)) (mp_keys m)) by (intros H; apply existsb_nat in H; congruence). split.
      + rewrite <- (rev_involutive (mp_keys m ++ [fst (fst e)])). apply NoDup_rev. rewrite rev_app_distr. cbn [rev app]. constructor; [rewrite <- in_rev; exact X'|apply NoDup_rev; exact N].
      + intros b. rewrite in_app_iff. cbn [In]. split; intros [H|H]; auto. destruct H as [H|[]]. auto. }
  destruct K as [K1 K2]. destruct (IH m1 K1) as [P1 P2]. split; [exact P1|]. intros b. rewrite P2, K2. cbn [map In]. intuition congruence.
Qed.
