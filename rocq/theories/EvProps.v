(** Properties C271-C274: the event log. *)
From Coq Require Import String Ascii List Bool Arith Lia.
From Verif Require Import EvModel EvSpec EvProofs.
Import ListNotations.
Open Scope string_scope.

(** C271: in a program with one system at a time, each message from the current level on is written once, in order, in the file of the system that exists, or
    on the console when there is none, and no construction fails *)
Theorem C271_destination : forall h, one_at_a_time None h -> w_lines (evrun h) = expected None INFO h /\ w_failed (evrun h) = [].
Proof. intros h H. exact (run_expected None h H INFO [] []). Qed.
Example C271_inhabited : let h := [Say INFO "a"; NewSystem 1; Say DEBUG "b"; SetLevel DEBUG; Say DEBUG "c"; EndSystem 1; Say DEBUG "d"; NewSystem 2; Say WARN "e"] in
  one_at_a_time None h /\ expected None INFO h = [(Console, "a"); (EventsOf 1, "c"); (EventsOf 2, "e")].
Proof. split; [repeat constructor|reflexivity]. Qed.

(** C272: a second system cannot be created as long as the first exists, and the end of the first is the end of the log of any other *)
Theorem C272_second_fails : forall h n m t, one_at_a_time None h -> (forall k, ~ In (EndSystem k) t) -> (forall k, ~ In (NewSystem k) t) ->
  w_failed (evrun (h ++ NewSystem n :: t ++ [NewSystem m])) <> [].
Proof.
  intros h n m t _ E N. unfold evrun. rewrite fold_left_app. cbn [fold_left]. rewrite fold_left_app. cbn [fold_left].
  set (w0 := step (fold_left step h (World start [] [])) (NewSystem n)).
  assert (G : l_registered (w_log w0) = true).
  { unfold w0. cbn [step]. unfold init. destruct (l_registered (w_log (fold_left step h (World start [] [])))) eqn:R; [exact R|reflexivity]. }
  assert (K : forall t w, (forall k, ~ In (EndSystem k) t) -> (forall k, ~ In (NewSystem k) t) -> l_registered (w_log w) = true -> l_registered (w_log (fold_left step t w)) = true).
  { clear. induction t as [|e t IH]; intros w E N R; [exact R|]. cbn [fold_left]. apply IH; [intros k I; apply (E k); right; exact I|intros k I; apply (N k); right; exact I|].
    destruct e as [k|k|v|v s]; cbn [step].
    - destruct (N k). left. reflexivity.
    - destruct (E k). left. reflexivity.
    - exact R.
    - destruct (rank (l_level (w_log w)) <=? rank v)%nat; exact R. }
  specialize (K t w0 E N G). cbn [step]. unfold init. rewrite K. cbn [w_failed]. intros X. apply app_eq_nil in X. destruct X as [_ X]. discriminate X.
Qed.
Theorem C272_independent_refuted : ~ (forall h, w_failed (evrun h) = []).
Proof. intros H. specialize (H [NewSystem 1; NewSystem 2]). discriminate H. Qed.

(** C273: the level asked for is forgotten when a system is created *)
Theorem C273_level_refuted : ~ (forall h, one_at_a_time None h -> l_level (w_log (evrun h)) = asked_level INFO h).
Proof. intros H. specialize (H [SetLevel DEBUG; NewSystem 1]). discriminate H. repeat constructor. Qed.
Theorem C273_level : forall h t v, (forall k, ~ In (NewSystem k) t /\ ~ In (EndSystem k) t) -> l_level (w_log (evrun (h ++ SetLevel v :: t))) = asked_level v t.
Proof.
  intros h t v H. unfold evrun. rewrite fold_left_app. cbn [fold_left step]. generalize (fold_left step h (World start [] [])). intros w.
  assert (G : forall t w v, (forall k, ~ In (NewSystem k) t /\ ~ In (EndSystem k) t) -> l_level (w_log w) = v -> l_level (w_log (fold_left step t w)) = asked_level v t).
  { clear. induction t as [|e t IH]; intros w v H E; [exact E|]. assert (H' : forall k, ~ In (NewSystem k) t /\ ~ In (EndSystem k) t) by (intros k; destruct (H k) as [A B]; split; intros I; [apply A|apply B]; right; exact I).
    cbn [fold_left]. destruct e as [k|k|u|u s]; cbn [asked_level].
    - destruct (H k) as [A _]. destruct A. left. reflexivity.
    - destruct (H k) as [_ A]. destruct A. left. reflexivity.
    - apply IH; [exact H'|reflexivity].
    - apply IH; [exact H'|]. cbn [step]. destruct (rank (l_level (w_log w)) <=? rank u)%nat; exact E. }
  apply G; [exact H|reflexivity].
Qed.
Example C273_inhabited : forall k, ~ In (NewSystem k) [Say DEBUG "x"; SetLevel WARN] /\ ~ In (EndSystem k) [Say DEBUG "x"; SetLevel WARN].
Proof. intros k. split; intros [H|[H|[]]]; discriminate H. Qed.

(** C274: when the type and the name have no braces, the text is the type and the name, then the message with its arguments ... *)
Theorem C274_text : forall type name format args, plain type -> plain name ->
  event type name format args = option_map (fun text => "[" ++ type ++ "] [" ++ name ++ "] " ++ text) (fmt format args).
Proof.
  intros type name format args T N. unfold event, PreFormat.
  assert (A : forall a b c : string, a ++ b ++ c = (a ++ b) ++ c). { clear. intros a. induction a as [|x a IH]; intros b c; [reflexivity|]. cbn. rewrite IH. reflexivity. }
  assert (P : plain ("[" ++ type ++ "] [" ++ name ++ "] ")).
  { apply plain_app; [repeat split; discriminate|]. apply plain_app; [exact T|]. apply plain_app; [repeat split; discriminate|]. apply plain_app; [exact N|]. repeat split; discriminate. }
  assert (R : forall f, "[" ++ type ++ "] [" ++ name ++ "] " ++ f = ("[" ++ type ++ "] [" ++ name ++ "] ") ++ f) by (intros f; rewrite !A; reflexivity).
  rewrite (R format), (fmt_plain _ _ _ P). destruct (fmt format args) as [text|]; [|reflexivity]. cbn [option_map]. f_equal. symmetry. apply R.
Qed.
(** ... the arguments being written as they are, with or without braces *)
Theorem C274_arguments : forall a b before middle after, plain before -> plain middle -> plain after ->
  fmt (before ++ "{}" ++ middle ++ "{}" ++ after) [a; b] = Some (before ++ a ++ middle ++ b ++ after).
Proof.
  intros a b before middle after B M A. rewrite (fmt_plain _ _ _ B). cbn [append]. change (fmt (String "{" (String "}" ?s)) [a; b]) with (option_map (append a) (fmt s [b])).
  cbn [fmt]. rewrite (fmt_plain _ _ _ M). cbn [fmt].
  assert (E : fmt after [] = Some after).
  { assert (N : forall s : string, s ++ "" = s) by (induction s as [|x s IH]; [reflexivity|cbn; rewrite IH; reflexivity]).
    rewrite <- (N after) at 1. rewrite (fmt_plain _ _ _ A). cbn [fmt option_map]. rewrite N. reflexivity. }
  rewrite E. reflexivity.
Qed.
Theorem C274_names_refuted : ~ (forall type name format args text, fmt format args = Some text -> event type name format args = Some ("[" ++ type ++ "] [" ++ name ++ "] " ++ text)).
Proof. intros H. specialize (H "Body" "{}" "added" [] "added" eq_refl). vm_compute in H. discriminate H. Qed.
Example C274_inhabited : plain "Body" /\ plain "platform 1" /\ fmt "{} of {}" ["a{"; "b"] = Some "a{ of b".
Proof. split; [repeat split; discriminate|]. split; [repeat split; discriminate|]. vm_compute. reflexivity. Qed.
