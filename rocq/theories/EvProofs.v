(** Lemmas for C271-C274. *)
From Coq Require Import String Ascii List Bool Arith Lia.
From Verif Require Import EvModel EvSpec.
Import ListNotations.
Open Scope string_scope.

Lemma run_expected : forall o h, one_at_a_time o h -> forall v l f,
  let w := fold_left step h (World (Log (place o) v (match o with Some _ => true | None => false end)) l f) in
  w_lines w = (l ++ expected o v h)%list /\ w_failed w = f.
Proof.
  intros o h H. induction H as [o|n h H IH|n h H IH|o u h H IH|o u t h H IH]; intros v l f; cbn [fold_left expected].
  - split; [symmetry; apply app_nil_r|reflexivity].
  - exact (IH INFO l f).
  - exact (IH INFO l f).
  - exact (IH u l f).
  - cbn [step w_log l_level l_sink w_lines w_failed]. replace (rank v <=? rank u)%nat with (passes v u) by (destruct v, u; reflexivity). destruct (passes v u) eqn:E.
    + destruct (IH v (l ++ [(place o, t)])%list f) as (A & B). split; [rewrite A, <- app_assoc; reflexivity|exact B].
    + exact (IH v l f).
Qed.

Lemma fmt_plain : forall p s args, plain p -> fmt (p ++ s) args = option_map (append p) (fmt s args).
Proof.
  intros p. induction p as [|c p IH]; intros s args H; [destruct (fmt s args) eqn:E; cbn; rewrite E; reflexivity|].
  destruct H as (A & B & H). specialize (IH s args H). change (String c p ++ s) with (String c (p ++ s)).
  assert (E : fmt (String c (p ++ s)) args = option_map (String c) (fmt (p ++ s) args)).
  { destruct c as [[] [] [] [] [] [] [] []]; try reflexivity; exfalso; first [apply A; reflexivity|apply B; reflexivity]. }
  rewrite E, IH. destruct (fmt s args); reflexivity.
Qed.
Lemma plain_app : forall p q, plain p -> plain q -> plain (p ++ q).
Proof. intros p q. induction p as [|c p IH]; [trivial|]. intros (A & B & H) Q. split; [exact A|]. split; [exact B|]. apply IH; assumption. Qed.
