(** Boundary loops of a triangle mesh (C32, C33). *)
From Coq Require Import Reals List Lia Permutation Arith Bool.
From Verif Require Import GeoModel GeoSpec MeshModel MeshSpec.
Import ListNotations.
Open Scope nat_scope.

Lemma edge_eqb_eq a b : edge_eqb a b = true <-> a = b.
Proof. destruct a as [a1 a2], b as [b1 b2]. unfold edge_eqb; cbn. rewrite andb_true_iff, !Nat.eqb_eq. split; [intros [-> ->]; reflexivity|intros H; injection H; auto]. Qed.
Lemma edge_mem_in e l : edge_mem e l = true <-> In e l.
Proof. unfold edge_mem. rewrite existsb_exists. split; [intros (x & A & B); apply edge_eqb_eq in B; subst; exact A|intros H; exists e; split; auto; apply edge_eqb_eq; reflexivity]. Qed.
Lemma edge_mem_out e l : edge_mem e l = false <-> ~ In e l.
Proof. rewrite <- edge_mem_in. destruct (edge_mem e l); split; congruence. Qed.
Lemma opp_opp e : opposite (opposite e) = e. Proof. destruct e; reflexivity. Qed.
Lemma opp_inj a b : opposite a = opposite b -> a = b.
Proof. intros H. rewrite <- (opp_opp a), <- (opp_opp b), H. reflexivity. Qed.
Lemma edge_dec (a b : edge) : {a = b} + {a <> b}. Proof. decide equality; apply Nat.eq_dec. Qed.

(** Directed edges and their boundary *)
Lemma in_boundary fs e : In e (boundary_halfedges fs) <-> In (opposite e) (face_edges fs) /\ ~ In e (face_edges fs).
Proof.
  unfold boundary_halfedges. rewrite in_map_iff. split.
  - intros (x & <- & H). apply filter_In in H as [H K]. rewrite opp_opp. split; [exact H|]. apply negb_true_iff, edge_mem_out in K. exact K.
  - intros [H K]. exists (opposite e). split; [apply opp_opp|]. apply filter_In. split; [exact H|]. rewrite opp_opp. apply negb_true_iff, edge_mem_out, K.
Qed.
Lemma NoDup_opp l : NoDup l -> NoDup (map opposite l).
Proof. intros H. apply FinFun.Injective_map_NoDup; [intros a b; apply opp_inj|exact H]. Qed.
Lemma boundary_NoDup fs : NoDup (face_edges fs) -> NoDup (boundary_halfedges fs).
Proof. intros H. apply NoDup_opp, NoDup_filter, H. Qed.
Lemma edges_symmetric fs : NoDup (face_edges fs) ->
  Permutation (face_edges fs ++ boundary_halfedges fs) (map opposite (face_edges fs ++ boundary_halfedges fs)).
Proof.
  intros N. set (E := face_edges fs) in *. set (B := boundary_halfedges fs).
  assert (NB : NoDup (E ++ B)).
  { assert (D : forall x, In x E -> ~ In x B) by (intros x Hx Hb; apply in_boundary in Hb; tauto).
    pose proof (boundary_NoDup fs N) as NB. fold B in NB. clearbody E B. clear fs. induction E as [|a E IH]; [exact NB|]. cbn. inversion N; subst. constructor.
    - rewrite in_app_iff. intros [K|K]; [auto|]. apply (D a); [left; reflexivity|exact K].
    - apply IH; auto. intros x Hx. apply D. right; exact Hx. }
  assert (ID : forall x, In x (E ++ B) -> In (opposite x) (E ++ B)).
  { intros x. rewrite !in_app_iff. intros [H|H].
    - destruct (in_dec edge_dec (opposite x) E) as [K|K]; [left; exact K|right]. apply in_boundary. rewrite opp_opp. split; assumption.
    - apply in_boundary in H. left. apply H. }
  apply NoDup_Permutation; [exact NB|apply NoDup_opp, NB|]. intros x. rewrite in_map_iff. split.
  - intros H. exists (opposite x). split; [apply opp_opp|apply ID, H].
  - intros (y & <- & H). apply ID, H.
Qed.
Lemma watertight_edges fs : HasBoundaries (Mesh nil fs nil None) = false -> boundary_halfedges fs = nil.
Proof.
  unfold HasBoundaries, boundary_halfedges; cbn [faces]. intros H.
  replace (filter _ (face_edges fs)) with (@nil edge); [reflexivity|]. symmetry.
  set (p := fun e => negb (edge_mem (opposite e) (face_edges fs))) in *. clearbody p. induction (face_edges fs) as [|a l IH]; [reflexivity|].
  cbn in *. apply orb_false_iff in H as [H1 H2]. rewrite H1. apply IH, H2.
Qed.
(** As many boundary half-edges leave a vertex as arrive *)
Lemma face_edges_balanced fs : Permutation (map fst (face_edges fs)) (map snd (face_edges fs)).
Proof.
  induction fs as [|[[a b] c] fs IH]; [constructor|]. change (face_edges ((a, b, c) :: fs)) with ([(a, b); (b, c); (c, a)] ++ face_edges fs).
  rewrite !map_app. apply Permutation_app; [|exact IH]. cbn.
  transitivity (a :: c :: [b]); [apply perm_skip, perm_swap|]. transitivity (c :: a :: [b]); [apply perm_swap|]. transitivity (c :: b :: [a]); [apply perm_skip, perm_swap|]. apply perm_swap.
Qed.
Lemma boundary_balanced fs : NoDup (face_edges fs) -> Permutation (map fst (boundary_halfedges fs)) (map snd (boundary_halfedges fs)).
Proof.
  intros N. pose proof (Permutation_map fst (edges_symmetric fs N)) as P. rewrite map_map in P.
  assert (Q : map (fun x => fst (opposite x)) (face_edges fs ++ boundary_halfedges fs) = map snd (face_edges fs ++ boundary_halfedges fs)) by (apply map_ext; reflexivity).
  rewrite Q, !map_app in P. rewrite (face_edges_balanced fs) in P. exact (Permutation_app_inv_l _ _ _ P).
Qed.

(** ** Loops *)
Lemma last_default {A} (r : list A) : forall a b, r <> nil -> last r a = last r b.
Proof. induction r as [|x r IH]; intros a b H; [congruence|]. destruct r; [reflexivity|]. cbn [last] in *. apply IH. discriminate. Qed.
Lemma last_in {A} (r : list A) : forall h, In (last r h) (h :: r).
Proof. induction r as [|x r IH]; intros h; [left; reflexivity|]. right. destruct r; [left; reflexivity|]. change (last (x :: a :: r) h) with (last (a :: r) h). rewrite (last_default _ h x) by discriminate. apply IH. Qed.
Lemma last_cons {A} (r : list A) : forall b a, last (b :: r) a = last r b.
Proof. induction r as [|c l IH]; intros; [reflexivity|]. change (last (b :: c :: l) a) with (last (c :: l) a). rewrite !IH. reflexivity. Qed.
Section Loops.
Variable B : list edge.
Hypothesis N1 : NoDup (map fst B).
Hypothesis BAL : Permutation (map fst B) (map snd B).
Notation nx := (next_boundary B).
Lemma nx_sound h k : nx h = Some k -> In k B /\ fst k = snd h.
Proof. intros H. apply find_some in H as [A C]. apply Nat.eqb_eq in C. auto. Qed.
Lemma nx_total h : In h B -> exists k, nx h = Some k.
Proof.
  intros H. assert (In (snd h) (map fst B)) as K by (rewrite BAL; apply in_map, H). apply in_map_iff in K as (k & E & K).
  destruct (nx h) as [k'|] eqn:F; [eauto|]. pose proof (find_none _ _ F k K) as Q. cbn in Q. rewrite E, Nat.eqb_refl in Q. discriminate.
Qed.
Lemma inj_of_NoDup {A C} (g : A -> C) l : NoDup (map g l) -> forall x y, In x l -> In y l -> g x = g y -> x = y.
Proof.
  induction l as [|a l IH]; cbn; [tauto|]. intros N x y Hx Hy E. inversion N as [|? ? Na Nl]; subst.
  destruct Hx as [->|Hx], Hy as [->|Hy]; auto.
  - exfalso; apply Na. rewrite E. apply in_map, Hy.
  - exfalso; apply Na. rewrite <- E. apply in_map, Hx.
Qed.
Lemma nx_inj h h' k : In h B -> In h' B -> nx h = Some k -> nx h' = Some k -> h = h'.
Proof.
  intros H H' K K'. apply nx_sound in K as [_ K]. apply nx_sound in K' as [_ K'].
  apply (inj_of_NoDup snd B); auto; [|congruence]. apply (Permutation_NoDup BAL), N1.
Qed.
Fixpoint chain (l : list edge) : Prop := match l with a :: ((b :: _) as l') => nx a = Some b /\ chain l' | _ => True end.
Lemma chain_snoc l h k : chain (l ++ [h]) -> nx h = Some k -> chain (l ++ [h] ++ [k]).
Proof. induction l as [|a l IH]; intros C H; [split; [exact H|exact I]|]. destruct l as [|b l]; [destruct C as [C _]; split; [exact C|split; [exact H|exact I]]|]. destruct C as [C1 C2]. split; [exact C1|]. apply IH; assumption. Qed.
Lemma chain_pred l k : chain l -> In k l -> k = hd k l \/ exists h, In h l /\ nx h = Some k.
Proof.
  induction l as [|a l IH]; cbn; [tauto|]. intros C [->|H]; [left; reflexivity|]. right. destruct l as [|b l]; [destruct H|]. destruct C as [C1 C2].
  destruct (IH C2 H) as [E|(h & H1 & H2)]; [cbn in E; subst; exists a; auto|exists h; auto].
Qed.
Lemma NoDup_length l : NoDup l -> incl l B -> length l <= length B.
Proof. intros A I. apply NoDup_incl_length; assumption. Qed.
Lemma circulate_ok fuel : forall w y h, let v := w ++ [y] in hd y v = hd y v -> NoDup v -> incl v B -> chain v -> nx y = Some h -> length B < fuel + length v ->
  exists l, circulate fuel B (hd y v) h = Some l /\ NoDup (v ++ l) /\ incl (v ++ l) B /\ chain (v ++ l) /\ nx (last (v ++ l) y) = Some (hd y v).
Proof.
  induction fuel as [|fuel IH]; intros w y h v _ Nv Iv Cv Hy L.
  - pose proof (NoDup_length v Nv Iv). lia.
  - cbn [circulate]. destruct (edge_eqb h (hd y v)) eqn:E.
    + apply edge_eqb_eq in E. subst h. exists nil. rewrite app_nil_r. repeat split; auto. unfold v. rewrite last_last. exact Hy.
    + assert (NE : h <> hd y v) by (intros K; apply edge_eqb_eq in K; congruence).
      assert (Hb : In h B) by (apply nx_sound in Hy; tauto).
      assert (Yb : In y B) by (apply Iv; unfold v; rewrite in_app_iff; cbn; auto).
      assert (NI : ~ In h v).
      { intros K. destruct (chain_pred v h Cv K) as [Q|(h' & H1 & H2)].
        - apply NE. rewrite Q at 1. unfold v. destruct w; reflexivity.
        - assert (h' = y) by (apply (nx_inj h' y h); auto). subst h'.
          (* y is the last element of v and has a successor inside v other than the head: position argument *)
          assert (forall l, NoDup (l ++ [y]) -> chain (l ++ [y]) -> nx y = Some h -> h <> hd y (l ++ [y]) -> In h (l ++ [y]) -> incl (l ++ [y]) B -> False) as POS; [|exact (POS w Nv Cv Hy NE K Iv)].
          clear -N1 BAL. intros l. induction l as [|a l IH]; cbn [app hd]; intros Nv Cv Hy NE K Iv.
          + destruct K as [K|[]]. congruence.
          + destruct K as [K|K]; [congruence|]. inversion Nv as [|? ? Na Nl]; subst.
            destruct (l ++ [y]) as [|b r] eqn:F; [destruct l; discriminate|]. destruct Cv as [C1 C2].
            destruct (edge_dec h b) as [->|D].
            * assert (a = y). { apply (nx_inj a y b); auto; [apply Iv; left; reflexivity|]. apply Iv. right. rewrite <- F. rewrite in_app_iff; cbn; auto. }
              subst a. apply Na. rewrite <- F, in_app_iff; cbn; auto.
            * apply IH; auto. intros x Hx; apply Iv; right; exact Hx. }
      destruct (nx_total h Hb) as (k & Hk). rewrite Hk.
      assert (HD : hd y v = hd h (v ++ [h])) by (unfold v; destruct w; reflexivity).
      destruct (IH v h k) as (l & A1 & A2 & A3 & A4 & A5); auto.
      * apply NoDup_Add with (a := h) (l := v); [|split; auto]. rewrite <- (app_nil_r v) at 1. apply Add_app.
      * intros x Hx. apply in_app_iff in Hx as [Hx|[<-|[]]]; auto.
      * unfold v; rewrite <- app_assoc; apply chain_snoc; auto.
      * rewrite app_length; cbn. lia.
      * rewrite <- HD in A1, A5. rewrite A1. exists (h :: l). split; [reflexivity|].
        assert (EQ : v ++ h :: l = (v ++ [h]) ++ l) by (rewrite <- app_assoc; reflexivity). rewrite EQ. repeat split; auto.
        replace (last ((v ++ [h]) ++ l) y) with (last ((v ++ [h]) ++ l) h); [exact A5|].
        apply last_default. destruct v; discriminate.
Qed.
(** A loop: a non-empty closed chain without repetition *)
Definition is_loop (l : list edge) : Prop := exists h r, l = h :: r /\ chain l /\ nx (last r h) = Some h.
Lemma find_none_incl tagged : find (fun h => negb (edge_mem h tagged)) B = None -> incl B tagged.
Proof. intros H x Hx. pose proof (find_none _ _ H x Hx) as K. cbn in K. apply negb_false_iff, edge_mem_in in K. exact K. Qed.
Lemma chain_forward (P : edge -> Prop) l : (forall h k, In h B -> nx h = Some k -> P k -> P h) -> incl l B -> chain l -> forall x, In x l -> P x -> P (hd x l).
Proof.
  intros F. induction l as [|a l IH]; cbn; [tauto|]. intros I C x [->|H] Px; [exact Px|]. destruct l as [|b l]; [destruct H|]. destruct C as [C1 C2].
  apply (F a b); auto; [apply I; left; reflexivity|]. apply (IH (fun y Hy => I y (or_intror Hy)) C2 x H Px).
Qed.
Lemma chain_succ l h r : l = h :: r -> chain l -> nx (last r h) = Some h -> forall x k, In x l -> nx x = Some k -> In k l.
Proof.
  intros -> C L. assert (G : forall r h z, chain (h :: r) -> nx (last r h) = Some z -> forall x k, In x (h :: r) -> nx x = Some k -> In k (r ++ [z])).
  { clear. intros r. induction r as [|b r IH]; intros h z C L x k Hx K.
    - cbn in *. destruct Hx as [->|[]]. left; congruence.
    - destruct C as [C1 C2]. destruct Hx as [->|Hx]; [cbn; left; congruence|]. cbn [app]. right. apply (IH b z C2) with (x := x); auto.
      rewrite <- L, last_cons. reflexivity. }
  intros x k Hx K. specialize (G r h h C L x k Hx K). apply in_app_iff in G as [G|[<-|[]]]; cbn; auto.
Qed.
Lemma loops_ok fuel : forall tagged, NoDup tagged -> incl tagged B -> (forall h k, In h B -> nx h = Some k -> (In h tagged <-> In k tagged)) ->
  length B <= fuel + length tagged -> NoDup B ->
  exists ls, boundary_loops fuel B tagged = Some ls /\ Permutation (tagged ++ concat ls) B /\ List.Forall is_loop ls.
Proof.
  induction fuel as [|fuel IH]; intros tg Nt It Ct L NB; cbn [boundary_loops].
  - destruct (find (fun h => negb (edge_mem h tg)) B) as [h|] eqn:F.
    + apply find_some in F as [F1 F2]. apply negb_true_iff, edge_mem_out in F2.
      assert (length (h :: tg) <= length B) by (apply NoDup_length; [constructor; auto|intros x [->|Hx]; auto]). cbn in H. lia.
    + apply find_none_incl in F. exists nil. cbn. rewrite app_nil_r. repeat split; auto. apply NoDup_Permutation; auto. intros x; split; auto.
  - destruct (find (fun h => negb (edge_mem h tg)) B) as [h|] eqn:F.
    + apply find_some in F as [F1 F2]. apply negb_true_iff, edge_mem_out in F2. destruct (nx_total h F1) as (k & Hk). rewrite Hk.
      destruct (circulate_ok (length B) nil h k) as (l & A1 & A2 & A3 & A4 & A5); cbn [app hd] in *; auto.
      { constructor; [intros []|constructor]. } { intros x [<-|[]]; auto. } { exact I. } { cbn. lia. }
      rewrite A1.
      assert (NT : forall x, In x (h :: l) -> ~ In x tg).
      { intros x Hx Kx. apply F2. change h with (hd x (h :: l)). apply (chain_forward (fun y => In y tg) (h :: l)); auto. intros a b Ha Hb K. apply (Ct a b); auto. }
      assert (LL : nx (last l h) = Some h). { rewrite <- A5, last_cons. reflexivity. }
      destruct (IH (tg ++ h :: l)) as (ls & B1 & B2 & B3); auto.
      * clear - Nt A2 NT. induction tg as [|a tg IH]; [exact A2|]. cbn. inversion Nt; subst. constructor.
        -- rewrite in_app_iff. intros [K|K]; [auto|]. apply (NT a K). left; reflexivity.
        -- apply IH; auto. intros x Hx K. apply (NT x Hx). right; exact K.
      * intros x Hx. apply in_app_iff in Hx as [Hx|Hx]; auto.
      * intros a b Ha Hb. rewrite !in_app_iff. rewrite (Ct a b Ha Hb). split; intros [K|K]; auto; right.
        -- apply (chain_succ (h :: l) h l eq_refl A4 LL a b K Hb).
        -- assert (exists c, In c (h :: l) /\ nx c = Some b) as (c & C1 & C2).
           { destruct (chain_pred (h :: l) b A4 K) as [Q|Q]; [|exact Q]. cbn in Q. subst b. exists (last l h). split; [apply last_in|exact LL]. }
           rewrite (nx_inj a c b); auto.
      * rewrite app_length. cbn. lia.
      * rewrite B1. exists ((h :: l) :: ls). split; [reflexivity|]. split.
        -- rewrite <- B2, <- app_assoc. reflexivity.
        -- constructor; [|exact B3]. exists h, l. auto.
    + apply find_none_incl in F. exists nil. cbn. rewrite app_nil_r. repeat split; auto. apply NoDup_Permutation; auto. intros x; split; auto.
Qed.
End Loops.
