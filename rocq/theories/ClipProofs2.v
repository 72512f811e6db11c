(** Splitting edges: combinatorics (C53). *)
From Coq Require Import Reals List Lra Lia Permutation Arith Bool.
From Verif Require Import GeoModel GeoSpec GeoProofs MeshModel MeshSpec MeshProofs2 ClipModel ClipSpec ClipProofs.
Import ListNotations.
Local Open Scope nat_scope.

Definition flipn (e : edge) : edge := (snd e, fst e).
Definition corners (t : tri) : list nat := [fst (fst t); snd (fst t); snd t].
Definition allE (fs : list tri) : list edge := concat (map edges_of fs).
Definition proper_tri (t : tri) : Prop := fst (fst t) <> snd (fst t) /\ snd (fst t) <> snd t /\ snd t <> fst (fst t).
Definition crosses (tg : nat -> vpos) (e : edge) : bool :=
  (is_above (tg (fst e)) && is_under (tg (snd e))) || (is_under (tg (fst e)) && is_above (tg (snd e))).
Definition done (tg : nat -> vpos) (t : tri) : Prop := forall e, In e (edges_of t) -> crosses tg e = false.
Definition no_under (tg : nat -> vpos) (t : tri) : Prop := forall x, In x (corners t) -> is_under (tg x) = false.
Definition no_above (tg : nat -> vpos) (t : tri) : Prop := forall x, In x (corners t) -> is_above (tg x) = false.
Definition parts (v a b : nat) (t : tri) : list tri := split_keep v a b t :: split_new0 v a b t ++ split_new1 v a b t.
Definition weight (tg : nat -> vpos) (t : tri) : nat := S (length (filter (crosses tg) (edges_of t))).
Definition weights (tg : nat -> vpos) (fs : list tri) : nat := list_sum (map (weight tg) fs).

Lemma mesh_allE fs : mesh_edges fs = allE fs.
Proof. unfold mesh_edges, allE. f_equal. apply map_ext. intros [[a b] c]. reflexivity. Qed.
Lemma allE_app a b : allE (a ++ b) = allE a ++ allE b.
Proof. unfold allE. rewrite map_app, concat_app. reflexivity. Qed.
Lemma allE_in e fs : In e (allE fs) <-> exists t, In t fs /\ In e (edges_of t).
Proof.
  unfold allE. rewrite in_concat. split.
  - intros (l & Hl & He). apply in_map_iff in Hl as (t & <- & Ht). eauto.
  - intros (t & Ht & He). exists (edges_of t). split; [apply in_map, Ht|exact He].
Qed.
Lemma allE_perm a b : Permutation a b -> Permutation (allE a) (allE b).
Proof.
  unfold allE. induction 1; cbn [map concat]; [constructor|apply Permutation_app_head; assumption| |eapply Permutation_trans; eassumption].
  rewrite !app_assoc. apply Permutation_app_tail, Permutation_app_comm.
Qed.
Lemma split_parts v a b fs : Permutation (split v a b fs) (concat (map (parts v a b) fs)).
Proof.
  unfold split. induction fs as [|t fs IH]; cbn [map concat]; [constructor|]. unfold parts at 1. cbn [app]. constructor.
  etransitivity; [|apply Permutation_app_head, IH].
  set (A := map _ fs). set (B := concat (map _ fs)). set (C := concat (map _ fs)). set (x := split_new0 v a b t). set (y := split_new1 v a b t).
  rewrite <- !app_assoc. etransitivity; [apply Permutation_app_swap_app|]. apply Permutation_app_head.
  rewrite (app_assoc A B (y ++ C)). etransitivity; [apply Permutation_app_swap_app|]. rewrite <- app_assoc. reflexivity.
Qed.
Ltac perm := repeat first [ apply perm_nil | apply perm_skip
  | apply (Permutation_cons_app [_]); cbn [app] | apply (Permutation_cons_app [_; _]); cbn [app] | apply (Permutation_cons_app [_; _; _]); cbn [app]
  | apply (Permutation_cons_app [_; _; _; _]); cbn [app] | apply (Permutation_cons_app [_; _; _; _; _]); cbn [app] | apply (Permutation_cons_app [_; _; _; _; _; _]); cbn [app] ].
Ltac eqbs := repeat match goal with
  | |- context [Nat.eqb ?a ?b] => destruct (Nat.eqb_spec a b)
  end.
(** What becomes of an edge *)
Definition sub (v a b : nat) (e : edge) : list edge :=
  if edge_eqb e (a, b) then [(a, v); (v, b)] else if edge_eqb e (b, a) then [(b, v); (v, a)] else [e].
Definition extra (v a b : nat) (t : tri) : list edge :=
  match apex t a b with Some c => [(c, v); (v, c)] | None => match apex t b a with Some d => [(d, v); (v, d)] | None => nil end end.
Lemma apex_some t a b c : apex t a b = Some c -> t = (a, b, c) \/ t = (c, a, b) \/ t = (b, c, a).
Proof.
  destruct t as [[x y] z]. unfold apex, edge_eqb. cbn [fst snd].
  destruct (Nat.eqb_spec x a), (Nat.eqb_spec y b), (Nat.eqb_spec y a), (Nat.eqb_spec z b), (Nat.eqb_spec z a), (Nat.eqb_spec x b); cbn [andb]; intros H; try discriminate; injection H as <-; subst; auto.
Qed.
Lemma apex_none t a b : apex t a b = None -> ~ In (a, b) (edges_of t).
Proof.
  destruct t as [[x y] z]. unfold apex, edge_eqb, edges_of. cbn [fst snd]. intros H [K|[K|[K|[]]]]; injection K as -> ->; rewrite !Nat.eqb_refl in H; cbn [andb] in H; repeat destruct (_ && _); discriminate.
Qed.
Lemma apex_edge t a b c : apex t a b = Some c -> In (a, b) (edges_of t).
Proof. intros H. apply apex_some in H as [->|[->| ->]]; cbn; auto. Qed.
(** three cases for a face and an edge *)
Inductive tri_case (a b : nat) (t : tri) : Prop :=
| tc_ab c : apex t a b = Some c -> apex t b a = None -> c <> a -> c <> b -> t = (a, b, c) \/ t = (c, a, b) \/ t = (b, c, a) -> tri_case a b t
| tc_ba d : apex t a b = None -> apex t b a = Some d -> d <> a -> d <> b -> t = (b, a, d) \/ t = (d, b, a) \/ t = (a, d, b) -> tri_case a b t
| tc_none : apex t a b = None -> apex t b a = None -> ~ In (a, b) (edges_of t) -> ~ In (b, a) (edges_of t) -> tri_case a b t.
Lemma tri_cases a b t : a <> b -> proper_tri t -> tri_case a b t.
Proof.
  intros N (P1 & P2 & P3). destruct (apex t a b) as [c|] eqn:E1; destruct (apex t b a) as [d|] eqn:E2.
  - exfalso. apply apex_some in E1. apply apex_some in E2. destruct t as [[x y] z]. cbn [fst snd] in *.
    destruct E1 as [E1|[E1|E1]], E2 as [E2|[E2|E2]]; injection E1; injection E2; intros; subst; congruence.
  - apply tc_ab with c; auto; apply apex_some in E1; auto; destruct E1 as [->|[->| ->]]; cbn [fst snd] in *; congruence.
  - apply tc_ba with d; auto; apply apex_some in E2; auto; destruct E2 as [->|[->| ->]]; cbn [fst snd] in *; congruence.
  - apply tc_none; auto; apply apex_none; assumption.
Qed.
Lemma edge_eqb_spec e f : reflect (e = f) (edge_eqb e f).
Proof.
  unfold edge_eqb. destruct e as [a b], f as [c d]. cbn [fst snd]. destruct (Nat.eqb_spec a c), (Nat.eqb_spec b d); cbn [andb]; constructor; congruence.
Qed.
Ltac edges := repeat match goal with |- context [edge_eqb ?a ?b] => destruct (edge_eqb_spec a b); try congruence end.
Lemma parts_edges v a b t : a <> b -> proper_tri t -> Permutation (allE (parts v a b t)) (flat_map (sub v a b) (edges_of t) ++ extra v a b t).
Proof.
  intros N P. unfold parts, split_keep, split_new0, split_new1, extra. destruct (tri_cases a b t N P) as [c E1 E2 N1 N2 T|d E1 E2 N1 N2 T|E1 E2 N1 N2]; rewrite E1, E2.
  - clear E1 E2. cbn [app]. unfold allE. cbn [map concat app]. destruct T as [->|[->| ->]]; unfold edges_of, sub; cbn [fst snd flat_map app]; edges; cbn [app]; perm.
  - clear E1 E2. cbn [app]. unfold allE. cbn [map concat app]. destruct T as [->|[->| ->]]; unfold edges_of, sub; cbn [fst snd flat_map app]; edges; cbn [app]; perm.
  - unfold allE. cbn [map concat app]. rewrite !app_nil_r. assert (H : forall l, ~ In (a, b) l -> ~ In (b, a) l -> flat_map (sub v a b) l = l).
    { clear. induction l as [|e l IH]; intros A B; [reflexivity|]. cbn [flat_map]. rewrite (IH (fun K => A (or_intror K)) (fun K => B (or_intror K))).
      unfold sub. destruct (edge_eqb_spec e (a, b)) as [->|_]; [exfalso; apply A; left; reflexivity|]. destruct (edge_eqb_spec e (b, a)) as [->|_]; [exfalso; apply B; left; reflexivity|]. reflexivity. }
    rewrite H by assumption. reflexivity.
Qed.
Definition closed_edges (l : list edge) : Prop := Permutation l (map flipn l).
Lemma flat_map_perm {A B} (f : A -> list B) l l' : Permutation l l' -> Permutation (flat_map f l) (flat_map f l').
Proof.
  induction 1; cbn [flat_map]; [constructor|apply Permutation_app_head; assumption| |eapply Permutation_trans; eassumption].
  rewrite !app_assoc. apply Permutation_app_tail, Permutation_app_comm.
Qed.
Lemma sub_flip v a b l : a <> b -> Permutation (map flipn (flat_map (sub v a b) l)) (flat_map (sub v a b) (map flipn l)).
Proof.
  intros N. induction l as [|[x y] l IH]; [constructor|]. cbn [flat_map map]. rewrite map_app. apply Permutation_app; [|exact IH]. unfold sub, flipn. cbn [fst snd].
  edges; cbn [map fst snd]; try (injection e; intros; subst; clear e); try (injection e0; intros; subst; clear e0); try congruence; perm.
Qed.
Lemma split_closed v a b fs : a <> b -> List.Forall proper_tri fs -> closed_edges (allE fs) -> closed_edges (allE (split v a b fs)).
Proof.
  intros N P C. unfold closed_edges in *.
  assert (H : Permutation (allE (split v a b fs)) (flat_map (sub v a b) (allE fs) ++ flat_map (extra v a b) fs)).
  { etransitivity; [apply allE_perm, split_parts|]. clear C. induction P as [|t fs P1 P2 IH]; [constructor|]. cbn [map concat flat_map]. rewrite allE_app. unfold allE at 3. cbn [map concat]. fold (allE fs). rewrite flat_map_app.
    etransitivity; [apply Permutation_app; [apply (parts_edges v a b t N P1)|exact IH]|]. rewrite <- !app_assoc. apply Permutation_app_head. apply Permutation_app_swap_app. }
  assert (X : Permutation (flat_map (extra v a b) fs) (map flipn (flat_map (extra v a b) fs))).
  { clear. induction fs as [|t fs IH]; [constructor|]. cbn [flat_map]. rewrite map_app. apply Permutation_app; [|exact IH]. unfold extra. destruct (apex t a b); [|destruct (apex t b a)]; cbn [map]; unfold flipn; cbn [fst snd]; perm. }
  etransitivity; [exact H|]. etransitivity; [|apply Permutation_map, Permutation_sym, H]. rewrite map_app. apply Permutation_app; [|exact X].
  etransitivity; [apply flat_map_perm, C|]. apply Permutation_sym, sub_flip, N.
Qed.
(** edges, corners and weights of the parts *)
Lemma keep_edges v a b t e : a <> b -> proper_tri t -> In e (edges_of (split_keep v a b t)) ->
  (In e (edges_of t) /\ e <> (a, b) /\ e <> (b, a)) \/ fst e = v \/ snd e = v.
Proof.
  intros N P. unfold split_keep. destruct (tri_cases a b t N P) as [c E1 E2 N1 N2 T|d E1 E2 N1 N2 T|E1 E2 N1 N2]; rewrite E1; [|rewrite E2|rewrite E2].
  - clear E1 E2. unfold edges_of at 1. cbn [fst snd]. intros [<-|[<-|[<-|[]]]]; cbn [fst snd]; auto. left. split; [destruct T as [->|[->| ->]]; cbn; auto|split; congruence].
  - clear E1 E2. unfold edges_of at 1. cbn [fst snd]. intros [<-|[<-|[<-|[]]]]; cbn [fst snd]; auto. left. split; [destruct T as [->|[->| ->]]; cbn; auto|split; congruence].
  - intros H. left. split; [exact H|]. split; intros ->; contradiction.
Qed.
Lemma keep_same v a b t : ~ In (a, b) (edges_of t) -> ~ In (b, a) (edges_of t) -> split_keep v a b t = t.
Proof.
  intros A B. unfold split_keep. destruct (apex t a b) eqn:E1; [apply apex_edge in E1; contradiction|]. destruct (apex t b a) eqn:E2; [apply apex_edge in E2; contradiction|]. reflexivity.
Qed.
Lemma keep_new v a b t : split_keep v a b t <> t -> In v (corners (split_keep v a b t)).
Proof. unfold split_keep. destruct (apex t a b); [cbn; auto|]. destruct (apex t b a); [cbn; auto|]. congruence. Qed.
Lemma parts_corners v a b t t' x : In t' (parts v a b t) -> In x (corners t') -> In x (corners t) \/ x = v.
Proof.
  unfold parts, split_keep, split_new0, split_new1. intros H. destruct (apex t a b) as [c|] eqn:E1; destruct (apex t b a) as [d|] eqn:E2; cbn [In app] in H.
  - apply apex_some in E1. apply apex_some in E2. destruct H as [<-|[<-|[<-|[]]]]; unfold corners at 1; cbn [fst snd]; intros [<-|[<-|[<-|[]]]]; auto; left; destruct E1 as [->|[->| ->]]; destruct E2 as [K|[K|K]]; injection K; intros; subst; cbn; auto.
  - apply apex_some in E1. destruct H as [<-|[<-|[]]]; unfold corners at 1; cbn [fst snd]; intros [<-|[<-|[<-|[]]]]; auto; left; destruct E1 as [->|[->| ->]]; cbn; auto.
  - apply apex_some in E2. destruct H as [<-|[<-|[]]]; unfold corners at 1; cbn [fst snd]; intros [<-|[<-|[<-|[]]]]; auto; left; destruct E2 as [->|[->| ->]]; cbn; auto.
  - destruct H as [<-|[]]. auto.
Qed.
Lemma parts_proper v a b t t' : a <> b -> proper_tri t -> ~ In v (corners t) -> In t' (parts v a b t) -> proper_tri t'.
Proof.
  intros N P F. unfold parts, split_keep, split_new0, split_new1. destruct (tri_cases a b t N P) as [c E1 E2 N1 N2 T|d E1 E2 N1 N2 T|E1 E2 N1 N2]; rewrite ?E1, ?E2; cbn [In app].
  - clear E1 E2. intros [<-|[<-|[]]]; unfold proper_tri; cbn [fst snd]; destruct T as [->|[->| ->]]; cbn in F; intuition.
  - clear E1 E2. intros [<-|[<-|[]]]; unfold proper_tri; cbn [fst snd]; destruct T as [->|[->| ->]]; cbn in F; intuition.
  - intros [<-|[]]. exact P.
Qed.
Lemma crosses_flip tg e : crosses tg (flipn e) = crosses tg e.
Proof. unfold crosses, flipn. cbn [fst snd]. destruct (tg (fst e)), (tg (snd e)); reflexivity. Qed.
Lemma crosses_on tg v e : tg v = VP_ON -> fst e = v \/ snd e = v -> crosses tg e = false.
Proof. intros H [K|K]; unfold crosses; rewrite K, H; cbn; [reflexivity|]. destruct (tg (fst e)); reflexivity. Qed.
Lemma parts_weight tg v a b t : a <> b -> proper_tri t -> tg v = VP_ON -> crosses tg (a, b) = true -> weights tg (parts v a b t) <= weight tg t.
Proof.
  intros N P V C. pose proof (crosses_flip tg (a, b)) as C'. unfold flipn in C'. cbn [fst snd] in C'. rewrite C in C'.
  assert (V1 : forall x, crosses tg (v, x) = false) by (intros x; apply (crosses_on tg v); auto). assert (V2 : forall x, crosses tg (x, v) = false) by (intros x; apply (crosses_on tg v); auto).
  unfold parts, split_keep, split_new0, split_new1. destruct (tri_cases a b t N P) as [c E1 E2 N1 N2 T|d E1 E2 N1 N2 T|E1 E2 N1 N2]; rewrite ?E1, ?E2; cbn [app].
  - clear E1 E2. unfold weights, weight. destruct T as [->|[->| ->]]; unfold edges_of; cbn [fst snd map filter]; rewrite ?V1, ?V2, ?C, ?C'; destruct (crosses tg (b, c)), (crosses tg (c, a)); cbn; lia.
  - clear E1 E2. unfold weights, weight. destruct T as [->|[->| ->]]; unfold edges_of; cbn [fst snd map filter]; rewrite ?V1, ?V2, ?C, ?C'; destruct (crosses tg (a, d)), (crosses tg (d, b)); cbn; lia.
  - unfold weights. cbn [map list_sum fold_right]. lia.
Qed.
Lemma weights_app tg a b : weights tg (a ++ b) = weights tg a + weights tg b.
Proof. unfold weights. rewrite map_app, list_sum_app. reflexivity. Qed.
Lemma list_sum_perm a b : Permutation a b -> list_sum a = list_sum b.
Proof. unfold list_sum. induction 1; cbn [fold_right]; lia. Qed.
Lemma split_weight tg v a b fs : a <> b -> List.Forall proper_tri fs -> tg v = VP_ON -> crosses tg (a, b) = true -> weights tg (split v a b fs) <= weights tg fs.
Proof.
  intros N P V C. unfold weights at 1. rewrite (list_sum_perm _ _ (Permutation_map (weight tg) (split_parts v a b fs))). fold (weights tg (concat (map (parts v a b) fs))).
  induction P as [|t fs P1 P2 IH]; [apply le_n|]. cbn [map concat]. rewrite weights_app. pose proof (parts_weight tg v a b t N P1 V C). unfold weights at 3. cbn [map list_sum fold_right]. fold (list_sum (map (weight tg) fs)). fold (weights tg fs). lia.
Qed.
Lemma split_in v a b fs t' : In t' (split v a b fs) -> exists t, In t fs /\ In t' (parts v a b t).
Proof.
  intros H. apply (Permutation_in _ (split_parts v a b fs)) in H. apply in_concat in H as (l & Hl & Ht). apply in_map_iff in Hl as (t & <- & Hi). eauto.
Qed.
Lemma split_length v a b fs : length fs <= length (split v a b fs).
Proof. unfold split. rewrite !app_length, map_length. lia. Qed.
Lemma split_nth v a b fs j d : j < length fs -> nth j (split v a b fs) d = split_keep v a b (nth j fs d).
Proof.
  intros H. unfold split. rewrite app_nth1 by (rewrite map_length; exact H). rewrite (nth_indep _ d (split_keep v a b d)) by (rewrite map_length; exact H). apply map_nth.
Qed.
Lemma weights_length tg fs : length fs <= weights tg fs.
Proof. unfold weights, weight. induction fs; cbn [map list_sum fold_right length]; [lia|]. fold (list_sum (map (weight tg) fs)). unfold list_sum in *. lia. Qed.
Lemma filter_le {A} (f : A -> bool) l : length (filter f l) <= length l.
Proof. induction l; cbn; [lia|]. destruct (f a); cbn; lia. Qed.
Lemma weights_bound tg fs : weights tg fs <= 4 * length fs.
Proof.
  unfold weights, weight. induction fs as [|t fs IH]; cbn [map list_sum fold_right length]; [lia|]. pose proof (filter_le (crosses tg) (edges_of t)) as H. cbn [edges_of length] in H.
  change (list_sum (map (fun t => S (length (filter (crosses tg) (edges_of t)))) fs) <= 4 * length fs) in IH. unfold list_sum in *. lia.
Qed.
