(** Lemmas: discretisation, bisection, directional spreading *)
From Coq Require Import Reals List Lra Lia Psatz Arith ZArith.
From Coquelicot Require Import Coquelicot.
From Verif Require Import GeoModel DispModel WavModel WavSpec WavProofs SeaModel SeaSpec SeaProofs.
Import ListNotations.
Open Scope R_scope.

(** ** Vectors *)
Lemma vat_ok {A : Type} (l : list A) i d : (i < length l)%nat -> vat l i = Ok (nth i l d).
Proof. intros H. unfold vat. rewrite (nth_error_nth' l d H). reflexivity. Qed.
Lemma vat_bad {A : Type} (l : list A) i : (length l <= i)%nat -> vat l i = Undef.
Proof. intros H. unfold vat. rewrite (proj2 (nth_error_None l i) H). reflexivity. Qed.
Lemma rcollect_ok {A : Type} (f : nat -> res A) (g : nat -> A) n : forall i0, (forall i, (i0 <= i < i0 + n)%nat -> f i = Ok (g i)) -> rcollect f i0 n = Ok (map g (seq i0 n)).
Proof. induction n as [|n IH]; intros i0 H; cbn; [reflexivity|]. rewrite (H i0) by lia. cbn. rewrite IH by (intros; apply H; lia). reflexivity. Qed.
Lemma rcollect_inv {A : Type} (f : nat -> res A) n : forall i0 l, rcollect f i0 n = Ok l -> length l = n /\ forall i, (i < n)%nat -> f (i0 + i)%nat = vat l i.
Proof.
  induction n as [|n IH]; intros i0 l H; cbn in H; [injection H as <-; split; [reflexivity|intros; lia]|].
  destruct (f i0) as [a| | | |] eqn:Fi; try discriminate. cbn in H. destruct (rcollect f (S i0) n) as [r| | | |] eqn:R; try discriminate. cbn in H. injection H as <-.
  destruct (IH _ _ R) as [L G]. split; [cbn; lia|]. intros [|i] Hi.
  - rewrite Nat.add_0_r, Fi. reflexivity.
  - replace (i0 + S i)%nat with (S i0 + i)%nat by lia. rewrite G by lia. reflexivity.
Qed.
(** a bad index at some turn makes the loop undefined, when the earlier turns are fine *)
Lemma rcollect_undef {A : Type} (f : nat -> res A) n : forall i0 j, (j < n)%nat -> (forall i, (i < j)%nat -> exists a, f (i0 + i)%nat = Ok a) -> f (i0 + j)%nat = Undef -> rcollect f i0 n = Undef.
Proof.
  induction n as [|n IH]; intros i0 j J H U; [lia|]. cbn. destruct j as [|j].
  - rewrite Nat.add_0_r in U. rewrite U. reflexivity.
  - destruct (H 0%nat ltac:(lia)) as [a Ha]. rewrite Nat.add_0_r in Ha. rewrite Ha. cbn.
    rewrite (IH (S i0) j); [reflexivity|lia| |].
    + intros i Hi. replace (S i0 + i)%nat with (i0 + S i)%nat by lia. apply H. lia.
    + replace (S i0 + j)%nat with (i0 + S j)%nat by lia. exact U.
Qed.

(** ** Discretisation *)
Lemma seq_split n : (2 <= n)%nat -> seq 0 n = 0%nat :: seq 1 (n - 2) ++ [(n - 1)%nat].
Proof.
  intros H. replace n with (1 + ((n - 2) + 1))%nat at 1 by lia. rewrite !seq_app. cbn [seq app Nat.add]. do 3 (try f_equal). all: try lia.
Qed.
Lemma disc_ok v : v <> [] -> length v <> 3%nat -> vectorDiscretization v = Ok (map (width v) (seq 0 (length v))).
Proof.
  intros NE N3. destruct v as [|a [|b r]]; [contradiction|reflexivity|]. set (v := a :: b :: r) in *.
  assert (L2 : (2 <= length v)%nat) by (cbn; lia). unfold vectorDiscretization. cbv iota beta. fold v. change (match v with [] => Fails | [_] => Ok [1] | _ :: _ :: _ => ?x end) with x.
  cbv zeta. rewrite (vat_ok v 1 0), (vat_ok v 0 0) by lia. cbn [rbind].  rewrite (vat_ok v (length v - 1) 0), (vat_ok v (length v - 1 - 1) 0) by lia.
  rewrite seq_split by exact L2. rewrite map_cons, map_app. cbn [map].
  assert (W0 : width v 0 = nth 1 v 0 - nth 0 v 0). { unfold width. destruct (Nat.eqb_spec (length v) 1); [lia|]. reflexivity. }
  assert (WN : width v (length v - 1) = nth (length v - 1) v 0 - nth (length v - 1 - 1) v 0).
  { unfold width. destruct (Nat.eqb_spec (length v) 1); [lia|]. destruct (Nat.eqb_spec (length v - 1) 0); [lia|]. rewrite Nat.eqb_refl. replace (length v - 1 - 1)%nat with (length v - 2)%nat by lia. reflexivity. }
  rewrite W0, WN.
  assert (M : (if Nat.ltb 2 (length v - 1) then rcollect (fun iv => b0 <<- vat v (iv + 1); a0 <<- vat v (iv - 1); Ok (/ 2 * (b0 - a0))) 1 (length v - 1 - 1) else Ok []) = Ok (map (width v) (seq 1 (length v - 2)))).
  { destruct (Nat.ltb_spec 2 (length v - 1)) as [G|G].
    - replace (length v - 1 - 1)%nat with (length v - 2)%nat by lia. apply rcollect_ok. intros i Hi. rewrite (vat_ok v (i + 1) 0), (vat_ok v (i - 1) 0) by lia. cbn [rbind]. f_equal.
      unfold width. destruct (Nat.eqb_spec (length v) 1); [lia|]. destruct (Nat.eqb_spec i 0); [lia|]. destruct (Nat.eqb_spec i (length v - 1)); [lia|]. field.
    - replace (length v - 2)%nat with 0%nat by lia. reflexivity. }
  rewrite M. cbn [rbind]. reflexivity.
Qed.
Lemma disc_three a b c : vectorDiscretization [a; b; c] = Ok [b - a; c - b].
Proof. reflexivity. Qed.
Lemma total_app l1 l2 : total (l1 ++ l2) = total l1 + total l2.
Proof. unfold total. induction l1 as [|a l IH]; cbn [app fold_right]; [ring|]. rewrite IH. ring. Qed.
Lemma total_mids v n : forall i, (1 <= i)%nat -> total (map (fun i => (nth (i + 1) v 0 - nth (i - 1) v 0) / 2) (seq i n)) =
  (nth (i + n) v 0 + nth (i + n - 1) v 0 - nth i v 0 - nth (i - 1) v 0) / 2.
Proof.
  induction n as [|n IH]; intros i Hi; cbn [seq map total fold_right].
  - rewrite Nat.add_0_r. field.
  - fold (total (map (fun i => (nth (i + 1) v 0 - nth (i - 1) v 0) / 2) (seq (S i) n))). rewrite IH by lia.
    replace (S i + n)%nat with (i + S n)%nat by lia. replace (S i - 1)%nat with i by lia. replace (i + 1)%nat with (S i) by lia. field.
Qed.
Lemma width_sum v : (2 <= length v)%nat -> let n := length v in
  total (map (width v) (seq 0 n)) = (nth (n - 1) v 0 - nth 0 v 0) + ((nth 1 v 0 - nth 0 v 0) + (nth (n - 1) v 0 - nth (n - 2) v 0)) / 2.
Proof.
  intros L n. rewrite seq_split by exact L. rewrite map_cons, map_app. cbn [map].
  assert (M : map (width v) (seq 1 (n - 2)) = map (fun i => (nth (i + 1) v 0 - nth (i - 1) v 0) / 2) (seq 1 (n - 2))).
  { apply map_ext_in. intros i Hi. apply in_seq in Hi. unfold width. fold n. destruct (Nat.eqb_spec n 1); [lia|]. destruct (Nat.eqb_spec i 0); [lia|]. destruct (Nat.eqb_spec i (n - 1)); [lia|]. reflexivity. }
  fold n. rewrite M. cbn [total fold_right]. fold (total (map (fun i => (nth (i + 1) v 0 - nth (i - 1) v 0) / 2) (seq 1 (n - 2)) ++ [width v (n - 1)])). rewrite total_app, total_mids by lia.
  assert (W0 : width v 0 = nth 1 v 0 - nth 0 v 0). { unfold width. fold n. destruct (Nat.eqb_spec n 1); [unfold n in *; lia|]. reflexivity. }
  assert (WN : width v (n - 1) = nth (n - 1) v 0 - nth (n - 2) v 0).
  { unfold width. fold n. destruct (Nat.eqb_spec n 1); [unfold n in *; lia|]. destruct (Nat.eqb_spec (n - 1) 0); [unfold n in *; lia|]. rewrite Nat.eqb_refl. reflexivity. }
  rewrite W0, WN. unfold total. cbn [fold_right]. replace (1 + (n - 2))%nat with (n - 1)%nat by (unfold n in *; lia). replace (n - 1 - 1)%nat with (n - 2)%nat by lia. replace (1 - 1)%nat with 0%nat by lia. field.
Qed.
(** trapezoid as a sum of widths *)
Lemma trap_sum f v : (2 <= length v)%nat -> let n := length v in
  total (map (fun i => f (nth i v 0) * width v i) (seq 0 n)) =
  trapezoid f v + (f (nth 0 v 0) * (nth 1 v 0 - nth 0 v 0) + f (nth (n - 1) v 0) * (nth (n - 1) v 0 - nth (n - 2) v 0)) / 2.
Proof.
  (* both sides in terms of half intervals *)
  intros L n.
  assert (T : forall l, (1 <= length l)%nat -> trapezoid f l = total (map (fun i => (nth (i + 1) l 0 - nth i l 0) * (f (nth i l 0) + f (nth (i + 1) l 0)) / 2) (seq 0 (length l - 1)))).
  { clear. induction l as [|a l IH]; intros Hl; [cbn in Hl; lia|]. destruct l as [|b r]; [reflexivity|].
    change (trapezoid f (a :: b :: r)) with ((b - a) * (f a + f b) / 2 + trapezoid f (b :: r)). rewrite IH by (cbn; lia).
    replace (length (a :: b :: r) - 1)%nat with (S (length (b :: r) - 1)) by (cbn; lia). cbn [seq map total fold_right]. cbn [Nat.add nth]. unfold total. f_equal.
    rewrite <- seq_shift, map_map. f_equal. }
  rewrite T by (unfold n in *; lia). fold n.
  (* right: sum of g i with g over intervals; left: over points *)
  assert (G : forall m, (m + 2 <= n)%nat ->
     total (map (fun i => f (nth i v 0) * width v i) (seq 0 (m + 1))) + f (nth (m + 1) v 0) * (nth (m + 1) v 0 - nth m v 0) / 2 =
     total (map (fun i => (nth (i + 1) v 0 - nth i v 0) * (f (nth i v 0) + f (nth (i + 1) v 0)) / 2) (seq 0 (m + 1))) + f (nth 0 v 0) * (nth 1 v 0 - nth 0 v 0) / 2 
     + (f (nth m v 0) * width v m - f (nth m v 0) * width v m)).
  { induction m as [|m IH]; intros Hm.
    - cbn [Nat.add seq map total fold_right]. assert (W0 : width v 0 = nth 1 v 0 - nth 0 v 0). { unfold width. fold n. destruct (Nat.eqb_spec n 1); [lia|]. reflexivity. }
      rewrite W0. field.
    - replace (S m + 1)%nat with ((m + 1) + 1)%nat by lia. rewrite (seq_app (m + 1) 1 0), !map_app, !total_app. cbn [Nat.add seq map total fold_right]. fold (total (map (fun i => f (nth i v 0) * width v i) (seq 0 (m + 1)))).
      specialize (IH ltac:(lia)).
      assert (W : width v (m + 1) = (nth (m + 1 + 1) v 0 - nth m v 0) / 2).
      { unfold width. fold n. destruct (Nat.eqb_spec n 1); [lia|]. destruct (Nat.eqb_spec (m + 1) 0); [lia|]. destruct (Nat.eqb_spec (m + 1) (n - 1)); [lia|]. f_equal. f_equal. f_equal. lia. }
      rewrite W. replace (S m) with (m + 1)%nat by lia. 
      unfold total in IH |- *. cbn [fold_right]. lra. }
  specialize (G (n - 2)%nat ltac:(unfold n in *; lia)). replace (n - 2 + 1)%nat with (n - 1)%nat in G by (unfold n in *; lia).
  replace n with (n - 1 + 1)%nat at 1 by (unfold n in *; lia). rewrite seq_app, map_app, total_app. cbn [Nat.add seq map total fold_right].
  assert (WN : width v (n - 1) = nth (n - 1) v 0 - nth (n - 2) v 0).
  { unfold width. fold n. destruct (Nat.eqb_spec n 1); [unfold n in *; lia|]. destruct (Nat.eqb_spec (n - 1) 0); [unfold n in *; lia|]. rewrite Nat.eqb_refl. reflexivity. }
  rewrite WN. lra.
Qed.
