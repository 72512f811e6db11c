(** Proofs for C75-C80 *)
From Coq Require Import Reals List Bool ZArith Lra Lia Arith.
From Verif Require Import GeoModel GeoSpec GeoProofs BodyModel SigModel SigSpec SigProofs SigProofs2 EqfModel SeaModel FloModel RadModel RadSpec.
Import ListNotations.
Open Scope R_scope.

Lemma rb_ok {A B} (r : res A) (f : A -> res B) b : rbind r f = Ok b -> exists a, r = Ok a /\ f a = Ok b.
Proof. destruct r; try discriminate. intros H. eexists. split; [reflexivity|exact H]. Qed.

Lemma increasing_tail a l : increasing (a :: l) -> increasing l.
Proof. destruct l; [trivial|]. intros [_ H]. exact H. Qed.
Lemma loc_spec x : forall l a i, increasing (a :: l) -> a <= x -> l <> [] -> x <= last l a ->
  exists j s, locate_from i a l x = Ok ((i + j)%nat, s) /\ (j < length l)%nat /\
    forall c m, length m = length l -> interpolated (a :: l) (c :: m) x = nth j (c :: m) 0 + s * (nth (S j) (c :: m) 0 - nth j (c :: m) 0).
Proof.
  induction l as [|b l IH]; intros a i Hi Ha Hn Hl; [congruence|]. cbn [locate_from].
  destruct Hi as [Hab Hi]. destruct (Rlt_dec b x) as [Hb|Hb].
  - destruct l as [|b' l]; [cbn in Hl; lra|].
    destruct (IH b (S i) Hi) as (j & s & E & Hj & E2); [lra|discriminate|rewrite (last_def l b' b a); exact Hl|].
    exists (S j), s. rewrite E. split; [f_equal; f_equal; lia|]. split; [cbn [length] in *; lia|].
    intros c m Hm. destruct m as [|d m]; [discriminate|].
    change (interpolated (a :: b :: b' :: l) (c :: d :: m) x) with (if Rle_dec x b then affine (a, c) (b, d) x else interpolated (b :: b' :: l) (d :: m) x).
    destruct (Rle_dec x b); [lra|]. rewrite (E2 d m) by (cbn [length] in *; lia). reflexivity.
  - exists 0%nat, ((x - a) / (b - a)). destruct (Req_EM_T a b); [lra|]. split; [f_equal; f_equal; lia|]. split; [cbn [length]; lia|].
    intros c m Hm. destruct m as [|d m]; [discriminate|].
    change (interpolated (a :: b :: l) (c :: d :: m) x) with (if Rle_dec x b then affine (a, c) (b, d) x else interpolated (b :: l) (d :: m) x).
    destruct (Rle_dec x b); [|lra]. cbn [nth]. unfold affine. cbn [fst snd]. field. lra.
Qed.
Lemma locate_spec xs x : increasing xs -> (2 <= length xs)%nat -> nth 0 xs 0 <= x <= last xs 0 ->
  exists j s, locate xs x = Ok (j, s) /\ (S j < length xs)%nat /\
    forall ys, length ys = length xs -> interpolated xs ys x = nth j ys 0 + s * (nth (S j) ys 0 - nth j ys 0).
Proof.
  intros Hi Hl Hx. destruct xs as [|a l]; [cbn in Hl; lia|]. cbn [nth] in Hx. cbn [locate]. destruct (Rlt_dec x a); [lra|].
  destruct l as [|b l]; [cbn in Hl; lia|].
  destruct (loc_spec x (b :: l) a 0%nat Hi) as (j & s & E & Hj & E2); [lra|discriminate| |].
  { destruct Hx as [_ Hx]. change (last (a :: b :: l) 0) with (last (b :: l) 0) in Hx. rewrite (last_def l b 0 a) in Hx. exact Hx. }
  exists j, s. split; [exact E|]. split; [cbn [length] in *; lia|]. intros [|c m] Hm; [discriminate|]. apply E2. cbn [length] in *; lia.
Qed.
Lemma Eval6_spec t T x : kernel_table t T -> 0 <= x <= T -> exists v, Eval6 t x = Ok v /\ forall k, v k = kernel t k x.
Proof.
  intros (L & Hi & H0 & HT & Hl) Hx. unfold Eval6.
  destruct (locate_spec (i6_x t) x Hi Hl) as (j & s & E & Hj & E2).
  { destruct (i6_x t); [cbn in Hl; lia|]. cbn [nth] in *. lra. }
  rewrite E. cbn [rbind fst snd]. unfold vat.
  destruct (nth_error (i6_y t) j) eqn:E3; [|apply nth_error_None in E3; lia].
  destruct (nth_error (i6_y t) (S j)) eqn:E4; [|apply nth_error_None in E4; lia].
  cbn [of_option rbind]. eexists. split; [reflexivity|]. intros k. unfold kernel. rewrite E2 by (rewrite map_length; exact L).
  assert (G : forall i y, nth_error (i6_y t) i = Some y -> nth i (map (fun v : vec6 => v k) (i6_y t)) 0 = y k).
  { intros i y E5. apply nth_error_nth. rewrite nth_error_map, E5. reflexivity. }
  rewrite (G j _ E3), (G (S j) _ E4). reflexivity.
Qed.

Lemma rcollect_ok {A} (f : nat -> res A) (g : nat -> A) : forall n i, (forall it, (i <= it < i + n)%nat -> f it = Ok (g it)) -> rcollect f i n = Ok (map g (seq i n)).
Proof.
  induction n as [|n IH]; intros i H; [reflexivity|]. cbn [rcollect seq map]. rewrite H by lia. cbn [rbind].
  rewrite IH by (intros; apply H; lia). reflexivity.
Qed.
Lemma rcollect_some {A} (f : nat -> res A) (P : nat -> A -> Prop) n : forall i, (forall it, (i <= it < i + n)%nat -> exists a, f it = Ok a /\ P it a) ->
  exists l, rcollect f i n = Ok l /\ length l = n /\ forall d it, (it < n)%nat -> P (i + it)%nat (nth it l d).
Proof.
  induction n as [|n IH]; intros i H; [exists []; repeat split; intros; lia|]. cbn [rcollect].
  destruct (H i) as (a & -> & Pa); [lia|]. cbn [rbind]. destruct (IH (S i)) as (l & -> & L & Pl); [intros; apply H; lia|].
  cbn [rbind]. exists (a :: l). split; [reflexivity|]. split; [cbn; lia|]. intros d [|it] Hit; [rewrite Nat.add_0_r; exact Pa|].
  cbn [nth]. replace (i + S it)%nat with (S i + it)%nat by lia. apply Pl. lia.
Qed.
Lemma rsum_ok {A} (l : list A) (f : A -> res vec6) (g : A -> nat -> R) : (forall a, In a l -> exists v, f a = Ok v /\ forall k, v k = g a k) ->
  exists v, rsum l f = Ok v /\ forall k, v k = total (map (fun a => g a k) l).
Proof.
  induction l as [|a l IH]; intros H; [exists zero6; split; reflexivity|]. cbn [rsum].
  destruct (H a) as (x & -> & X); [left; reflexivity|]. cbn [rbind]. destruct IH as (y & -> & Y); [intros; apply H; right; auto|].
  cbn [rbind]. eexists. split; [reflexivity|]. intros k. unfold add6. cbn [map total]. rewrite X, Y. reflexivity.
Qed.

(** A recorder r shows the ages a and the values w d *)
Definition shows6 (r : rec6) (a : list R) (w : nat -> list R) : Prop :=
  GetTime6 r = a /\ a <> [] /\ forall d, (d < 6)%nat -> GetData (r d) = w d /\ length (w d) = length a.
Lemma convolve_spec t T r a w d : kernel_table t T -> shows6 r a w -> (d < 6)%nat -> (forall i, (i < length a)%nat -> 0 <= nth i a 0 <= T) ->
  exists c, Convolve t r d = Ok c /\ forall k, c k = convolution (kernel t k) a (w d).
Proof.
  intros HT (Ea & Hn & W) Hd Ha. destruct (W d Hd) as [Ew Lw]. unfold Convolve. rewrite Ea.
  destruct (rcollect_some (fun it => a0 <<- vat a it; K <<- Eval6 t a0; v <<- Data6 r it d; Ok (scale6 v K))
     (fun it v => forall k, v k = kernel t k (nth it a 0) * nth it (w d) 0) (length a) 0) as (l & -> & L & P).
  { intros it Hit. unfold vat. destruct (nth_error a it) eqn:E; [|apply nth_error_None in E; lia].
    pose proof (nth_error_nth a it 0 E) as En. cbn [of_option rbind].
    destruct (Eval6_spec t T r0 HT) as (v & -> & V); [rewrite <- En; apply Ha; lia|]. cbn [rbind]. unfold Data6. rewrite Ew.
    destruct (nth_error (w d) it) eqn:E2; [|apply nth_error_None in E2; lia]. cbn [rbind]. eexists. split; [reflexivity|].
    intros k. unfold scale6. rewrite V, En, (nth_error_nth (w d) it 0 E2). ring. }
  cbn [rbind Nat.add] in *. unfold Trapz6.
  assert (M : forall k, map (fun v : vec6 => v k) l = map (fun p => kernel t k (fst p) * snd p) (combine a (w d))).
  { intros k. apply (nth_ext _ _ 0 0); [rewrite !map_length, combine_length; lia|]. intros n Hn'. rewrite map_length in Hn'.
    rewrite (nth_indep _ 0 (zero6 k)) by (rewrite map_length; lia). rewrite (map_nth (fun v : vec6 => v k)), P by lia.
    set (F := fun p => kernel t k (fst p) * snd p). rewrite (nth_indep (map F (combine a (w d))) 0 (F (0, 0))) by (rewrite map_length, combine_length; lia).
    rewrite (map_nth F), combine_nth by lia. reflexivity. }
  destruct (Nat.leb_spec (length l) 1) as [H1|H1].
  - exists zero6. split; [reflexivity|]. intros k. unfold convolution. rewrite <- M. destruct a as [|x [|y a]]; [congruence| |cbn in *; lia].
    cbn [trapezoids]. destruct l; reflexivity.
  - replace (length a =? length l)%nat with true by (symmetry; apply Nat.eqb_eq; lia).
    eexists. split; [reflexivity|]. intros k. cbn beta. rewrite trapz_spec by (rewrite map_length; lia). unfold convolution. rewrite M. reflexivity.
Qed.
