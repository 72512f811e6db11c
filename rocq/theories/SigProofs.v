From Coq Require Import Reals List Lra Lia Arith.
From Coquelicot Require Import Coquelicot.
From Verif Require Import SigModel SigSpec.
Import ListNotations.
Open Scope R_scope.

(** ** Trapezoidal rule *)
Lemma nth_S {A} (a : A) l n d : nth (S n) (a :: l) d = nth n l d. Proof. reflexivity. Qed.
(** loop shifted by one element *)
Definition loop_from (x y : list R) (k n : nat) (st : R * R) : R * R :=
  fold_left (fun st i => let dxi := fst st in let dxii := nth (i + 1) x 0 - nth i x 0 in
    (dxii, snd st + nth i y 0 * (dxi + dxii))) (seq k n) st.
Lemma loop_shift a c x y n : forall k st, loop_from (a :: x) (c :: y) (S k) n st = loop_from x y k n st.
Proof.
  unfold loop_from. induction n as [|n IH]; intros k st; [reflexivity|]. cbn [seq fold_left]. rewrite IH. reflexivity.
Qed.
Lemma loop_sum x y n : forall k d s, snd (loop_from x y k n (d, s)) = s + snd (loop_from x y k n (d, 0)).
Proof.
  unfold loop_from. induction n as [|n IH]; intros k d s; cbn [seq fold_left snd fst]; [ring|].
  rewrite IH. rewrite (IH _ _ (0 + _)). ring.
Qed.
Lemma trapz_core : forall x y, length x = S (S (length y - 2)) -> length y = length x ->
  (1/2) * (snd (loop_from x y 1 (length y - 2) (nth 1 x 0 - nth 0 x 0, 0)) + nth 0 y 0 * (nth 1 x 0 - nth 0 x 0)
    + nth (length y - 1) y 0 * (nth (length y - 1) x 0 - nth (length y - 2) x 0)) = trapezoids x y.
Proof.
  intros x. induction x as [|a x IH]; intros y Hx Hy; [discriminate|].
  destruct y as [|c y]; [discriminate|]. destruct x as [|b x]; [cbn in Hx; lia|]. destruct y as [|d y]; [discriminate|].
  destruct x as [|e x].
  - destruct y; [|discriminate]. cbn. field.
  - destruct y as [|f y]; [discriminate|].
    specialize (IH (d :: f :: y)). cbn [length] in *.
    replace (S (S (S (length y))) - 2)%nat with (S (length y)) in * by lia.
    replace (S (S (length y)) - 2)%nat with (length y) in IH by lia.
    replace (S (S (S (length y))) - 1)%nat with (S (S (length y))) in * by lia.
    replace (S (S (length y)) - 1)%nat with (S (length y)) in IH by lia.
    specialize (IH ltac:(lia) ltac:(lia)).
    change (trapezoids (a :: b :: e :: x) (c :: d :: f :: y)) with ((b - a) * ((c + d) / 2) + trapezoids (b :: e :: x) (d :: f :: y)).
    rewrite <- IH. clear IH.
    unfold loop_from at 1. cbn [seq fold_left]. change (seq 2 (length y)) with (seq (S 1) (length y)).
    match goal with |- context [fold_left ?F (seq 2 (length y)) ?st] => change (fold_left F (seq 2 (length y)) st) with (loop_from (a :: b :: e :: x) (c :: d :: f :: y) (S 1) (length y) st) end.
    rewrite loop_shift. cbn [fst snd]. rewrite loop_sum. rewrite !nth_S. cbn [Nat.add nth]. field.
Qed.
Lemma trapz_spec x y : length x = length y -> TrapzLoc x y = Some (trapezoids x y).
Proof.
  intros H. unfold TrapzLoc. destruct (Nat.leb_spec (length y) 1).
  - destruct x as [|a [|b x]], y as [|c [|d y]]; cbn in *; try lia; reflexivity.
  - rewrite H, Nat.eqb_refl. f_equal. rewrite <- trapz_core by lia. reflexivity.
Qed.
Lemma trapz_assert x y : (1 < length y)%nat -> length x <> length y -> TrapzLoc x y = None.
Proof. intros A B. unfold TrapzLoc. rewrite (proj2 (Nat.leb_gt _ _) A). rewrite (proj2 (Nat.eqb_neq _ _) B). reflexivity. Qed.

Lemma is_RInt_affine (a b c d : R) f : a < b -> (forall t, a <= t <= b -> f t = affine (a, c) (b, d) t) ->
  is_RInt f a b ((b - a) * ((c + d) / 2)).
Proof.
  intros H E. apply (is_RInt_ext (fun t => affine (a, c) (b, d) t)).
  { intros t Ht. rewrite Rmin_left, Rmax_right in Ht by lra. symmetry. apply E. lra. }
  pose (F := fun t => c * t + (d - c) * (t - a) * (t - a) / (2 * (b - a))).
  replace ((b - a) * ((c + d) / 2)) with (minus (F b) (F a)).
  - apply (is_RInt_derive F).
    + intros t _. unfold F, affine. cbn [fst snd]. auto_derive; [lra|]. field. lra.
    + intros t _. apply (@continuity_pt_filterlim). unfold affine. cbn [fst snd].
      apply derivable_continuous_pt. exists ((d - c) / (b - a)). apply is_derive_Reals. auto_derive; [trivial|]. field; lra.
  - unfold F, minus, plus, opp; cbn. field. lra.
Qed.
Lemma last_def {A} (x : list A) : forall r a b, last (r :: x) a = last (r :: x) b.
Proof. induction x as [|c x IH]; intros r a b; [reflexivity|]. change (last (c :: x) a = last (c :: x) b). apply IH. Qed.
Lemma trapz_exact : forall x y f a, length x = length y -> increasing (a :: x) -> forall c, polyline (a :: x) (c :: y) f ->
  is_RInt f a (last x a) (trapezoids (a :: x) (c :: y)).
Proof.
  induction x as [|b x IH]; intros y f a Hl Hi c P.
  - destruct y; [|discriminate]. exact (@is_RInt_point R_NormedModule f a).
  - destruct y as [|d y]; [discriminate|]. destruct Hi as [H1 H2]. destruct P as [P1 P2].
    change (trapezoids (a :: b :: x) (c :: d :: y)) with ((b - a) * ((c + d) / 2) + trapezoids (b :: x) (d :: y)).
    change (last (b :: x) a) with (match x with nil => b | _ => last x a end).
    replace (match x with nil => b | _ => last x a end) with (last x b).
    + apply (is_RInt_Chasles f a b _ ((b - a) * ((c + d) / 2))).
      * apply is_RInt_affine; auto.
      * apply IH; auto.
    + destruct x; auto. apply last_def.
Qed.
Lemma trapz_linear : forall x y z k, length x = length y -> length x = length z ->
  trapezoids x (map (fun p => k * fst p + snd p) (combine y z)) = k * trapezoids x y + trapezoids x z.
Proof.
  induction x as [|a x IH]; intros [|c y] [|d z] k A B; try discriminate; [cbn; ring|].
  destruct x as [|b x], y as [|c' y], z as [|d' z]; try discriminate; [cbn; ring|].
  specialize (IH (c' :: y) (d' :: z) k ltac:(auto) ltac:(auto)).
  cbn [combine map fst snd] in *.
  change (trapezoids (a :: b :: x) (c :: c' :: y)) with ((b - a) * ((c + c') / 2) + trapezoids (b :: x) (c' :: y)).
  change (trapezoids (a :: b :: x) (d :: d' :: z)) with ((b - a) * ((d + d') / 2) + trapezoids (b :: x) (d' :: z)).
  match goal with |- trapezoids (a :: b :: x) (?u :: ?v :: ?w) = _ => change (trapezoids (a :: b :: x) (u :: v :: w)) with ((b - a) * ((u + v) / 2) + trapezoids (b :: x) (v :: w)) end.
  rewrite IH. field.
Qed.
Lemma trapz_mono : forall x y z, increasing x -> List.Forall2 Rle y z -> trapezoids x y <= trapezoids x z.
Proof.
  induction x as [|a x IH]; intros y z Hi F; [destruct y, z; cbn; lra|].
  destruct x as [|b x].
  - destruct y, z; cbn; lra.
  - destruct F as [|c d y z H1 F]; [cbn; lra|]. destruct F as [|c' d' y z H2 F]; [cbn; lra|].
    change (trapezoids (a :: b :: x) (c :: c' :: y)) with ((b - a) * ((c + c') / 2) + trapezoids (b :: x) (c' :: y)).
    change (trapezoids (a :: b :: x) (d :: d' :: z)) with ((b - a) * ((d + d') / 2) + trapezoids (b :: x) (d' :: z)).
    destruct Hi as [Hi1 Hi2]. specialize (IH (c' :: y) (d' :: z) Hi2 ltac:(constructor; auto)).
    assert ((b - a) * ((c + c') / 2) <= (b - a) * ((d + d') / 2)) by (apply Rmult_le_compat_l; lra). lra.
Qed.
Lemma trapz_split : forall x1 y1 a c x2 y2, length x1 = length y1 ->
  trapezoids (x1 ++ a :: x2) (y1 ++ c :: y2) = trapezoids (x1 ++ [a]) (y1 ++ [c]) + trapezoids (a :: x2) (c :: y2).
Proof.
  induction x1 as [|b x1 IH]; intros [|d y1] a c x2 y2 H; try discriminate.
  - cbn [app]. destruct x2, y2; cbn; ring.
  - cbn [app]. specialize (IH y1 a c x2 y2 ltac:(auto)).
    destruct x1 as [|e x1], y1 as [|f y1]; try discriminate; cbn [app] in *.
    + match goal with |- trapezoids (b :: a :: x2) (d :: c :: y2) = _ => change (trapezoids (b :: a :: x2) (d :: c :: y2)) with ((a - b) * ((d + c) / 2) + trapezoids (a :: x2) (c :: y2)) end. cbn. ring.
    + change (trapezoids (b :: e :: x1 ++ a :: x2) (d :: f :: y1 ++ c :: y2)) with ((e - b) * ((d + f) / 2) + trapezoids (e :: x1 ++ a :: x2) (f :: y1 ++ c :: y2)).
      change (trapezoids (b :: e :: x1 ++ [a]) (d :: f :: y1 ++ [c])) with ((e - b) * ((d + f) / 2) + trapezoids (e :: x1 ++ [a]) (f :: y1 ++ [c])).
      rewrite IH. ring.
Qed.
