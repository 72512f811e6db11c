(** The clipped mesh: what is kept, the lid that closes it, what is lost (C53). *)
From Coq Require Import Reals List Lra Lia Permutation Arith Bool.
From Verif Require Import GeoModel GeoSpec GeoProofs MeshModel MeshSpec MeshProofs2 MeshProofs7 ClipModel ClipSpec ClipProofs ClipProofs2 ClipProofs3.
Import ListNotations.
Local Open Scope nat_scope.

Lemma filter_split {A} (f : A -> bool) l : Permutation l (filter f l ++ filter (fun x => negb (f x)) l).
Proof.
  induction l as [|x l IH]; [constructor|]. cbn [filter]. destruct (f x); cbn [negb app]; [constructor; exact IH|].
  apply Permutation_cons_app, IH.
Qed.
Lemma filter_perm {A} (f : A -> bool) l l' : Permutation l l' -> Permutation (filter f l) (filter f l').
Proof.
  induction 1; cbn [filter]; auto.
  - destruct (f x); auto.
  - destruct (f x), (f y); auto. apply perm_swap.
  - eapply perm_trans; eassumption.
Qed.
Lemma filter_flipn (f : edge -> bool) l : (forall e, f (flipn e) = f e) -> filter f (map flipn l) = map flipn (filter f l).
Proof. intros H. induction l as [|e l IH]; [reflexivity|]. cbn [map filter]. rewrite H, IH. destruct (f e); reflexivity. Qed.
Lemma map_nth_seq' {A} (l : list A) d : map (fun i => nth i l d) (seq 0 (length l)) = l.
Proof.
  induction l as [|x l IH]; [reflexivity|]. cbn [length seq map]. f_equal. rewrite <- seq_shift, map_map. exact IH.
Qed.
Lemma fst_snd_perm fs : Permutation (map fst (allE fs)) (map snd (allE fs)).
Proof.
  induction fs as [|[[a b] c] fs IH]; [constructor|]. unfold allE in *. cbn [map concat edges_of]. rewrite !map_app. apply Permutation_app; [|exact IH]. cbn.
  apply (Permutation_trans (l' := [b; a; c])); [apply perm_swap|apply perm_skip, perm_swap].
Qed.
Definition lid_of (g : nat -> vec) (o : vec) (F : list edge) : soup := map (fun e => (o, g (snd e), g (fst e))) F.
Definition emap (g : nat -> vec) (e : edge) : vec * vec := (g (fst e), g (snd e)).
Lemma lid_edges g o F : Permutation (soup_edges (lid_of g o F)) (map (emap g) (map flipn F) ++ map (fun p => (o, g p)) (map snd F) ++ map (fun p => (g p, o)) (map fst F)).
Proof.
  induction F as [|[a b] F IH]; [constructor|]. unfold lid_of in *. cbn [map]. unfold soup_edges in *. cbn [map concat tri_edges fst snd app]. cbn [emap flipn fst snd].
  eapply perm_trans; [|apply perm_skip, Permutation_middle]. eapply perm_trans; [apply perm_swap|]. apply perm_skip, perm_skip.
  rewrite app_assoc. apply Permutation_cons_app. rewrite <- app_assoc. exact IH.
Qed.
Lemma flip_emap g l : map flip (map (emap g) l) = map (emap g) (map flipn l).
Proof. rewrite !map_map. reflexivity. Qed.
Lemma lid_closes g o fs F G : Permutation (allE fs) (F ++ G) -> closed_edges G ->
  watertight (map (fun t : tri => (g (fst (fst t)), g (snd (fst t)), g (snd t))) fs ++ lid_of g o F).
Proof.
  intros P C. unfold watertight. match goal with |- context [soup_edges (?x ++ _)] => set (s := x) end.
  assert (ES : soup_edges s = map (emap g) (allE fs)).
  { unfold s. clear. induction fs as [|[[a b] c] fs IH]; [reflexivity|]. unfold soup_edges, allE in *. cbn [map concat edges_of]. rewrite map_app, <- IH. reflexivity. }
  assert (FS : Permutation (map fst F) (map snd F)).
  { pose proof (fst_snd_perm fs) as Q. rewrite (Permutation_map fst P), (Permutation_map snd P), !map_app in Q.
    assert (Q2 : Permutation (map fst G) (map snd G)). { rewrite (Permutation_map fst C) at 1. rewrite map_map. reflexivity. }
    rewrite Q2 in Q. apply Permutation_app_inv_r in Q. exact Q. }
  assert (EA : Permutation (soup_edges (s ++ lid_of g o F)) ((map (emap g) F ++ map (emap g) (map flipn F)) ++ map (emap g) G ++ map (fun p => (o, g p)) (map snd F) ++ map (fun p => (g p, o)) (map snd F))).
  { replace (soup_edges (s ++ lid_of g o F)) with (soup_edges s ++ soup_edges (lid_of g o F)) by (unfold soup_edges; rewrite map_app, concat_app; reflexivity). rewrite ES, lid_edges, (Permutation_map (emap g) P), map_app.
    rewrite <- (Permutation_map (fun p => (g p, o)) FS) at 1. rewrite <- !app_assoc. apply Permutation_app_head. rewrite !app_assoc. do 2 apply Permutation_app_tail. apply Permutation_app_comm. }
  rewrite EA at 1. rewrite (Permutation_map flip EA). rewrite !map_app. apply Permutation_app; [|apply Permutation_app].
  - rewrite !flip_emap. rewrite !map_map. cbn. replace (map (fun x => emap g (flipn (flipn x))) F) with (map (emap g) F) by (apply map_ext; intros [? ?]; reflexivity). apply Permutation_app_comm.
  - rewrite flip_emap. apply Permutation_map, C.
  - rewrite !map_map. cbn [flip fst snd]. apply Permutation_app_comm.
Qed.

Section Final.
Context (om : openmesh) (sf : surface) (thr ratio : R) (cl ex : Prop) (near : vec -> Prop).
Context (OMc : circulators om) (CUT : forall p q, in_world p -> in_world q -> opposite_sides (s_dist sf) thr p q -> exists r, s_inter sf p q = Some r /\ between p q r /\ near r).
Context (NEAR : forall r, near r -> (Rabs (s_dist sf r) < thr)%R).
Context (T0 : (0 < thr)%R) (R1 : (ratio <= 1)%R) (R0 : ex -> (ratio <= 0)%R).

Definition kept st i := negb (existsb (Nat.eqb i) (c_del st)).
Lemma kept_in st i : kept st i = true <-> ~ In i (c_del st).
Proof.
  unfold kept. rewrite negb_true_iff. split.
  - intros H K. assert (E : existsb (Nat.eqb i) (c_del st) = true) by (apply existsb_exists; exists i; split; [exact K|apply Nat.eqb_refl]). congruence.
  - intros H. destruct (existsb (Nat.eqb i) (c_del st)) eqn:E; [|reflexivity]. apply existsb_exists in E as (x & K & Q). apply Nat.eqb_eq in Q. subst x. contradiction.
Qed.
Lemma apply_ok fuel m : indices_ok (verts m) (faces m) -> proper (faces m) -> (cl -> borderless (faces m)) -> (forall p, In p (verts m) -> in_world p) ->
  (forall p, In p (verts m) -> (Rabs (s_dist sf p) < thr)%R -> near p) -> 4 * length (faces m) <= fuel ->
  exists m', Apply fuel om sf thr ratio m = Some m' /\ m' = UpdateAllProperties m' /\ indices_ok (verts m') (faces m') /\ proper (faces m') /\ (forall p, In p (verts m') -> in_world p) /\
    (forall a b c, In (a, b, c) (mesh_soup m') -> (s_dist sf a < thr /\ s_dist sf b < thr /\ s_dist sf c < thr)%R) /\
    (forall a b c, In (a, b, c) (mesh_soup m') -> forall p, p = a \/ p = b \/ p = c -> near p \/ (s_dist sf p <= - thr)%R) /\
    (cl -> forall o, exists lid, (forall a b c, In (a, b, c) lid -> a = o /\ near b /\ near c) /\ watertight (mesh_soup m' ++ lid)) /\
    (ex -> (forall i, i < length (verts m) -> nth i (verts m') origin = nth i (verts m) origin) /\
       (forall a b c, In (a, b, c) (mesh_soup m') -> (s_dist sf a <= - thr \/ s_dist sf b <= - thr \/ s_dist sf c <= - thr)%R) /\
       exists dry, (forall a b c, In (a, b, c) dry -> forall p, p = a \/ p = b \/ p = c -> near p \/ (thr <= s_dist sf p)%R) /\
         (forall p, covered (mesh_soup m) p <-> covered (mesh_soup m') p \/ covered dry p) /\
         (forall phi, additive phi -> (total_over phi (mesh_soup m') + total_over phi dry = total_over phi (mesh_soup m))%R)).
Proof.
  intros IX PR CL W NR FU. pose proof (init_inv sf thr cl near T0 m IX PR CL W NR) as I0. set (st0 := ClipInitialize sf thr m) in *.
  destruct (clip_loop om sf thr ratio cl ex near OMc CUT NEAR T0 R1 R0 fuel st0 0 I0) as (st & E & I & ST & RS); [intros j Hj; lia| |].
  { pose proof (weights_bound (tag st0) (c_faces st0)) as B. cbn [st0 ClipInitialize c_faces] in *. lia. }
  unfold Apply. fold st0. rewrite E. exists (ClipFinalize st). split; [reflexivity|]. split; [reflexivity|].
  set (m' := ClipFinalize st). set (n := length (c_faces st)) in *.
  set (KI := filter (kept st) (seq 0 n)). set (DI := filter (fun i => negb (kept st i)) (seq 0 n)).
  assert (VM : verts m' = c_verts st) by reflexivity. assert (FM : faces m' = map (face_at st) KI) by reflexivity.
  assert (PF : Permutation (c_faces st) (map (face_at st) KI ++ map (face_at st) DI)).
  { rewrite <- map_app. rewrite <- (map_nth_seq' (c_faces st) (0, 0, 0)) at 1. fold n. apply (Permutation_map (face_at st)), filter_split. }
  assert (INF : forall t, In t (faces m') -> In t (c_faces st)) by (intros t Ht; rewrite FM in Ht; apply (Permutation_in _ (Permutation_sym PF)), in_or_app; left; exact Ht).
  assert (KP : forall t, In t (faces m') -> exists i, i < n /\ ~ In i (c_del st) /\ t = face_at st i).
  { intros t Ht. rewrite FM in Ht. apply in_map_iff in Ht as (i & <- & Hi). apply filter_In in Hi as [Q1 Q2]. apply in_seq in Q1. exists i. split; [lia|]. split; [apply kept_in, Q2|reflexivity]. }
  assert (NA : forall t, In t (faces m') -> no_above (tag st) t).
  { intros t Ht. destruct (KP t Ht) as (i & Hi & ND & ->). destruct (RS i Hi) as (_ & [Q|Q] & _); [exact Q|contradiction]. }
  assert (NU : forall t, In t (map (face_at st) DI) -> no_under (tag st) t).
  { intros t Ht. apply in_map_iff in Ht as (i & <- & Hi). apply filter_In in Hi as [Q1 Q2]. apply (i_del _ _ _ _ _ I). destruct (existsb (Nat.eqb i) (c_del st)) eqn:EB; [|unfold kept in Q2; rewrite EB in Q2; discriminate].
    apply existsb_exists in EB as (x & K & Q). apply Nat.eqb_eq in Q. subst x. exact K. }
  assert (SO : forall s : list tri, map (fun t => (place st (fst (fst t)), place st (snd (fst t)), place st (snd t))) s = soup_of (c_verts st) s) by (intros s; apply map_ext; intros [[? ?] ?]; reflexivity).
  assert (SK : mesh_soup m' = map (fun t => (place st (fst (fst t)), place st (snd (fst t)), place st (snd t))) (map (face_at st) KI)) by (rewrite SO; reflexivity).
  assert (TR : forall a b c, In (a, b, c) (mesh_soup m') -> exists t, In t (faces m') /\ (a, b, c) = (place st (fst (fst t)), place st (snd (fst t)), place st (snd t))).
  { intros a b c H. rewrite SK in H. apply in_map_iff in H as (t & Q & Ht). exists t. split; [rewrite FM; exact Ht|symmetry; exact Q]. }
  assert (IDX : forall t x, In t (c_faces st) -> In x (corners t) -> x < length (c_verts st)) by apply I.
  split; [|split; [|split; [|split; [|split; [|split]]]]].
  - intros a b c H. apply INF in H. rewrite VM. repeat split; apply (IDX (a, b, c)); auto; cbn; auto.
  - intros a b c H. apply INF in H. exact (proj1 (Forall_forall _ _) (i_prop _ _ _ _ _ I) _ H).
  - rewrite VM. apply I.
  - assert (LT : forall t x, In t (faces m') -> In x (corners t) -> (s_dist sf (place st x) < thr)%R).
    { intros t x Ht Hx. pose proof (NA t Ht x Hx) as Q. pose proof (i_tag _ _ _ _ _ I x (IDX t x (INF t Ht) Hx)) as G. destruct (tag st x); cbn [tagged] in G; [discriminate|apply NEAR in G; unfold Rabs in G; destruct (Rcase_abs _) in G; lra|lra]. }
    intros a b c H. destruct (TR a b c H) as (t & Ht & Q). injection Q as -> -> ->. repeat split; apply (LT t); auto; cbn; auto.
  - assert (LT : forall t x, In t (faces m') -> In x (corners t) -> near (place st x) \/ (s_dist sf (place st x) <= - thr)%R).
    { intros t x Ht Hx. pose proof (NA t Ht x Hx) as Q. pose proof (i_tag _ _ _ _ _ I x (IDX t x (INF t Ht) Hx)) as G. destruct (tag st x); cbn [tagged] in G; [discriminate|left; exact G|right; exact G]. }
    intros a b c H. destruct (TR a b c H) as (t & Ht & Q). assert (Qa : a = place st (fst (fst t))) by congruence. assert (Qb : b = place st (snd (fst t))) by congruence. assert (Qc : c = place st (snd t)) by congruence.
    intros p [->|[->| ->]]; rewrite ?Qa, ?Qb, ?Qc; apply (LT t); auto; cbn; auto.
  - intros X o. set (onE := fun e : edge => match tag st (fst e), tag st (snd e) with VP_ON, VP_ON => true | _, _ => false end).
    set (unE := fun e : edge => is_under (tag st (fst e)) || is_under (tag st (snd e))).
    set (Ek := allE (map (face_at st) KI)). set (Ed := allE (map (face_at st) DI)).
    exists (lid_of (place st) o (filter onE Ek)). split.
    + intros a b c H. apply in_map_iff in H as ([x y] & Q & H). apply filter_In in H as [H1 H2]. unfold onE in H2. cbn [fst snd] in *.
      apply allE_in in H1 as (t & Ht & He). rewrite <- FM in Ht. apply INF in Ht. apply corner_edge in He as [Hx Hy]. cbn [fst snd] in *.
      pose proof (i_tag _ _ _ _ _ I x (IDX t x Ht Hx)) as Gx. pose proof (i_tag _ _ _ _ _ I y (IDX t y Ht Hy)) as Gy. destruct (tag st x), (tag st y); try discriminate. cbn [tagged] in *. injection Q as <- <- <-. auto.
    + rewrite SK. apply (lid_closes (place st) o _ _ (filter (fun e => negb (onE e)) Ek)); [apply filter_split|].
      assert (KU : filter (fun e => negb (onE e)) Ek = filter unE Ek).
      { apply filter_ext_in. intros e He. apply allE_in in He as (t & Ht & He). rewrite <- FM in Ht. apply corner_edge in He as [Hx Hy]. pose proof (NA t Ht _ Hx) as Ax. pose proof (NA t Ht _ Hy) as Ay. unfold onE, unE. destruct (tag st (fst e)), (tag st (snd e)); try discriminate; reflexivity. }
      assert (DU : filter unE Ed = nil).
      { destruct (filter unE Ed) as [|e l] eqn:EF; [reflexivity|]. exfalso. assert (He : In e (filter unE Ed)) by (rewrite EF; left; reflexivity). apply filter_In in He as [He Hu]. apply allE_in in He as (t & Ht & He). apply corner_edge in He as [Hx Hy]. unfold unE in Hu. rewrite (NU t Ht _ Hx), (NU t Ht _ Hy) in Hu. discriminate. }
      rewrite KU. unfold closed_edges. pose proof (i_closed _ _ _ _ _ I X) as C. unfold closed_edges in C. rewrite (allE_perm _ _ PF), allE_app in C. fold Ek Ed in C. apply (filter_perm unE) in C. rewrite filter_flipn, filter_app, DU, app_nil_r in C; [exact C|]. intros [x y]. unfold unE, flipn. cbn [fst snd]. apply orb_comm.
  - intros X. destruct (s_exact _ _ _ ST X) as (E1 & E2 & E3 & _). split; [|split].
    + intros i Hi. rewrite VM. apply (E2 i Hi).
    + intros a b c H. destruct (TR a b c H) as (t & Ht & Q). injection Q as -> -> ->. destruct (KP t Ht) as (i & Hi & ND & Et). destruct (RS i Hi) as (_ & _ & RX). rewrite <- Et in RX.
      assert (ON : forall x, In x (corners t) -> is_under (tag st x) = true -> (s_dist sf (place st x) <= - thr)%R).
      { intros x Hx U. pose proof (i_tag _ _ _ _ _ I x (IDX t x (INF t Ht) Hx)) as G. destruct (tag st x); try discriminate. exact G. }
      destruct (is_under (tag st (fst (fst t)))) eqn:U1; [left; apply ON; [cbn; auto|exact U1]|]. destruct (is_under (tag st (snd (fst t)))) eqn:U2; [right; left; apply ON; [cbn; auto|exact U2]|].
      destruct (is_under (tag st (snd t))) eqn:U3; [right; right; apply ON; [cbn; auto|exact U3]|]. exfalso. apply ND, RX; [exact X|]. intros x [<-|[<-|[<-|[]]]]; assumption.
    + exists (soup_of (c_verts st) (map (face_at st) DI)). split; [|split].
      * assert (LT : forall t x, In t (map (face_at st) DI) -> In x (corners t) -> near (place st x) \/ (thr <= s_dist sf (place st x))%R).
        { intros t x Ht Hx. assert (Ht' : In t (c_faces st)) by (apply (Permutation_in _ (Permutation_sym PF)), in_or_app; right; exact Ht). pose proof (NU t Ht x Hx) as Q. pose proof (i_tag _ _ _ _ _ I x (IDX t x Ht' Hx)) as G. destruct (tag st x); cbn [tagged] in G; [right; exact G|left; exact G|discriminate]. }
        intros a b c H. rewrite <- SO in H. apply in_map_iff in H as (t & Q & Ht). assert (Qa : a = place st (fst (fst t))) by congruence. assert (Qb : b = place st (snd (fst t))) by congruence. assert (Qc : c = place st (snd t)) by congruence.
        intros p [->|[->| ->]]; rewrite ?Qa, ?Qb, ?Qc; apply (LT t); auto; cbn; auto.
      * intros p. pose proof (s_cover _ _ _ ST X p) as C.
        assert (CV : forall s' fs, c_faces s' = fs -> (cover s' p <-> covered (soup_of (c_verts s') fs) p)).
        { intros s' fs <-. unfold cover, covered. split.
          - intros (t & Ht & K). exists (place s' (fst (fst t))), (place s' (snd (fst t))), (place s' (snd t)). split; [|exact K]. apply in_map_iff. exists t. split; [destruct t as [[? ?] ?]; reflexivity|exact Ht].
          - intros (a & b & c & Ht & K). apply in_map_iff in Ht as (t & Q & Ht). exists t. split; [exact Ht|]. destruct t as [[x y] z]. cbn [triangle_at] in Q. cbn [fst snd]. unfold place, point. change vzero with origin. injection Q as -> -> ->. exact K. }
        rewrite (CV st0 (faces m) eq_refl), (CV st _ eq_refl) in C. change (mesh_soup m) with (soup_of (c_verts st0) (faces m)). rewrite <- C. change (mesh_soup m') with (soup_of (c_verts st) (map (face_at st) KI)).
        assert (CP : forall s s', Permutation s s' -> covered s p -> covered s' p) by (intros s s' Q (a & b & c & K1 & K2); exists a, b, c; split; [apply (Permutation_in _ Q), K1|exact K2]).
        assert (PS : Permutation (soup_of (c_verts st) (c_faces st)) (soup_of (c_verts st) (map (face_at st) KI) ++ soup_of (c_verts st) (map (face_at st) DI))) by (unfold soup_of; rewrite <- map_app; apply Permutation_map, PF).
        split.
        -- intros K. apply (CP _ _ PS) in K as (a & b & c & K1 & K2). apply in_app_or in K1 as [K1|K1]; [left|right]; exists a, b, c; auto.
        -- intros K. apply (CP _ _ (Permutation_sym PS)). destruct K as [(a & b & c & K1 & K2)|(a & b & c & K1 & K2)]; exists a, b, c; (split; [apply in_or_app; auto|exact K2]).
      * intros phi AD. pose proof (E3 phi AD) as V. unfold value in V.
        assert (TV : forall s' (fs : list tri), sum (map (tri_value phi s') fs) = total_over phi (soup_of (c_verts s') fs)).
        { intros s' fs. unfold total_over, soup_of. rewrite map_map. f_equal. apply map_ext. intros [[x y] z]. reflexivity. }
        rewrite (sum_perm _ _ (Permutation_map (tri_value phi st) PF)), map_app, sum_app, !TV in V. exact V.
Qed.
End Final.
