(** The clipping loop: invariants and termination (C53). *)
From Coq Require Import Reals List Lra Lia Permutation Arith Bool.
From Verif Require Import GeoModel GeoSpec GeoProofs MeshModel MeshSpec MeshProofs2 ClipModel ClipSpec ClipProofs ClipProofs2.
Import ListNotations.
Local Open Scope nat_scope.

Section Clipper.
Context (om : openmesh) (sf : surface) (thr ratio : R) (cl ex : Prop) (near : vec -> Prop).
Context (OMc : circulators om) (CUT : forall p q, in_world p -> in_world q -> opposite_sides (s_dist sf) thr p q -> exists r, s_inter sf p q = Some r /\ between p q r /\ near r).
Context (NEAR : forall r, near r -> (Rabs (s_dist sf r) < thr)%R).
Context (T0 : (0 < thr)%R) (R1 : (ratio <= 1)%R) (R0 : ex -> (ratio <= 0)%R).

Definition tagged (v : vpos) (p : vec) : Prop :=
  match v with VP_ABOVE => (thr <= s_dist sf p)%R | VP_ON => near p | VP_UNDER => (s_dist sf p <= - thr)%R end.
Record Inv (st : cmesh) : Prop := {
  i_len : length (c_tags st) = length (c_verts st);
  i_tag : forall i, i < length (c_verts st) -> tagged (tag st i) (place st i);
  i_idx : forall t x, In t (c_faces st) -> In x (corners t) -> x < length (c_verts st);
  i_prop : List.Forall proper_tri (c_faces st);
  i_closed : cl -> closed_edges (allE (c_faces st));
  i_world : forall p, In p (c_verts st) -> in_world p;
  i_del : forall j, In j (c_del st) -> j < length (c_faces st) /\ no_under (tag st) (face_at st j) }.
Definition tri_value (phi : vec -> vec -> vec -> R) (st : cmesh) (t : tri) : R := phi (place st (fst (fst t))) (place st (snd (fst t))) (place st (snd t)).
Definition value (phi : vec -> vec -> vec -> R) (st : cmesh) : R := sum (map (tri_value phi st) (c_faces st)).
Definition cover (st : cmesh) (p : vec) : Prop := exists t, In t (c_faces st) /\ inside (place st (fst (fst t))) (place st (snd (fst t))) (place st (snd t)) p.
Record Step (st st' : cmesh) : Prop := {
  s_len : length (c_faces st) <= length (c_faces st');
  s_done : forall j, j < length (c_faces st) -> done (tag st) (face_at st j) -> face_at st' j = face_at st j;
  s_tag : forall i, tag st' i = tag st i \/ tag st' i = VP_ON;
  s_mu : weights (tag st') (c_faces st') <= weights (tag st) (c_faces st);
  s_del : incl (c_del st) (c_del st');
  s_vlen : length (c_verts st) <= length (c_verts st');
  s_cover : ex -> forall p, cover st' p <-> cover st p;
  s_exact : ex -> (forall i, tag st' i = tag st i) /\ (forall i, i < length (c_verts st) -> place st' i = place st i) /\
     (forall phi, additive phi -> value phi st' = value phi st) /\
     (forall j, j < length (c_faces st) -> face_at st' j <> face_at st j -> no_under (tag st') (face_at st' j) -> In j (c_del st')) }.

Lemma done_tags tg tg' t : (forall i, tg' i = tg i \/ tg' i = VP_ON) -> done tg t -> done tg' t.
Proof.
  intros H D e He. specialize (D e He). unfold crosses in *. destruct (H (fst e)) as [-> | ->]; destruct (H (snd e)) as [-> | ->]; cbn; auto; try (destruct (tg (fst e)); reflexivity).
Qed.
Lemma no_under_tags tg tg' t : (forall i, tg' i = tg i \/ tg' i = VP_ON) -> no_under tg t -> no_under tg' t.
Proof. intros H D x Hx. specialize (D x Hx). destruct (H x) as [-> | ->]; [exact D|reflexivity]. Qed.
Lemma step_refl st : Step st st.
Proof. constructor; auto; try lia; [intros x Hx; exact Hx|intros; reflexivity|]. intros _. repeat split; auto. intros j _ K. congruence. Qed.
Lemma step_trans a b c : Step a b -> Step b c -> Step a c.
Proof.
  intros S1 S2. constructor.
  - pose proof (s_len _ _ S1). pose proof (s_len _ _ S2). lia.
  - intros j Hj D. rewrite <- (s_done _ _ S1 j Hj D). apply (s_done _ _ S2); [pose proof (s_len _ _ S1); lia|]. rewrite (s_done _ _ S1 j Hj D). apply (done_tags (tag a)); [apply S1|exact D].
  - intros i. destruct (s_tag _ _ S2 i) as [-> | ->]; [apply S1|auto].
  - pose proof (s_mu _ _ S1). pose proof (s_mu _ _ S2). lia.
  - intros x Hx. apply S2, S1, Hx.
  - pose proof (s_vlen _ _ S1). pose proof (s_vlen _ _ S2). lia.
  - intros X p. rewrite (s_cover _ _ S2 X p). apply (s_cover _ _ S1 X).
  - intros X. destruct (s_exact _ _ S1 X) as (A1 & A2 & A3 & A4). destruct (s_exact _ _ S2 X) as (B1 & B2 & B3 & B4). pose proof (s_len _ _ S1). pose proof (s_vlen _ _ S1). split; [|split; [|split]].
    + intros i. rewrite B1. apply A1.
    + intros i Hi. rewrite B2 by lia. apply A2, Hi.
    + intros phi AD. rewrite B3 by exact AD. apply A3, AD.
    + intros j Hj NE NU. destruct (list_eq_dec Nat.eq_dec (corners (face_at c j)) (corners (face_at b j))) as [E|E].
      * assert (E' : face_at c j = face_at b j) by (destruct (face_at c j) as [[? ?] ?], (face_at b j) as [[? ?] ?]; injection E as -> -> ->; reflexivity).
        apply (s_del _ _ S2). apply A4; [exact Hj|rewrite <- E'; exact NE|]. intros x Hx. rewrite <- E' in Hx. specialize (NU x Hx). rewrite B1 in NU. exact NU.
      * apply B4; [lia|congruence|exact NU].
Qed.

Lemma tag_app st i (vs : list vec) fs dl : tag (CM vs (c_tags st ++ [VP_ON]) fs dl) i = tag st i.
Proof.
  unfold tag. cbn [c_tags]. destruct (Nat.lt_ge_cases i (length (c_tags st))) as [L|L]; [apply app_nth1, L|].
  rewrite app_nth2 by exact L. rewrite (nth_overflow (c_tags st)) by exact L. destruct (i - length (c_tags st)) as [|[|k]]; reflexivity.
Qed.
Lemma between_world p q r : in_world p -> in_world q -> between p q r -> in_world r.
Proof.
  intros (A1 & A2 & A3) (B1 & B2 & B3) (s & S1 & ->). unfold in_world, plus3, scal3, minus3. cbn [vx vy vz].
  set (M := (10 ^ 9)%R) in *. clearbody M. repeat split; nra.
Qed.
Lemma between_sym p q r : between p q r -> between q p r.
Proof. intros (s & S1 & ->). exists (1 - s)%R. split; [lra|]. destruct p, q; apply vec_eq; geo; ring. Qed.
Lemma crosses_sides st a b : Inv st -> a < length (c_verts st) -> b < length (c_verts st) -> crosses (tag st) (a, b) = true -> opposite_sides (s_dist sf) thr (place st a) (place st b).
Proof.
  intros I A B C. pose proof (i_tag _ I a A) as TA. pose proof (i_tag _ I b B) as TB. unfold crosses in C. cbn [fst snd] in C. unfold opposite_sides.
  destruct (tag st a), (tag st b); try discriminate; cbn [tagged] in TA, TB; auto.
Qed.
Lemma place_in st a : a < length (c_verts st) -> In (place st a) (c_verts st).
Proof. intros H. apply nth_In, H. Qed.
Lemma place_app st p i vs tgs fs dl : vs = c_verts st ++ [p] -> i < length (c_verts st) -> place (CM vs tgs fs dl) i = place st i.
Proof. intros -> H. unfold place, point. cbn [c_verts]. apply app_nth1, H. Qed.
Lemma place_last st p tgs fs dl : place (CM (c_verts st ++ [p]) tgs fs dl) (length (c_verts st)) = p.
Proof. unfold place, point. cbn [c_verts]. rewrite app_nth2, Nat.sub_diag by lia. reflexivity. Qed.
Lemma parts_value phi st p a b t tgs fs dl : additive phi -> a <> b -> proper_tri t -> (forall x, In x (corners t) -> x < length (c_verts st)) -> between (place st a) (place st b) p ->
  sum (map (tri_value phi (CM (c_verts st ++ [p]) tgs fs dl)) (parts (length (c_verts st)) a b t)) = tri_value phi st t.
Proof.
  intros (CY & AD) N P I B. set (st' := CM _ _ _ _). set (v := length (c_verts st)).
  assert (L : forall x, In x (corners t) -> place st' x = place st x) by (intros x Hx; eapply place_app; [reflexivity|apply I, Hx]).
  assert (Lv : place st' v = p) by apply place_last.
  unfold parts, split_keep, split_new0, split_new1. destruct (tri_cases a b t N P) as [c E1 E2 N1 N2 T|d E1 E2 N1 N2 T|E1 E2 N1 N2]; rewrite ?E1, ?E2; cbn [app map]; unfold sum; cbn [fold_right].
  - clear E1 E2. assert (Ha : place st' a = place st a) by (apply L; destruct T as [->|[->| ->]]; cbn; auto). assert (Hb : place st' b = place st b) by (apply L; destruct T as [->|[->| ->]]; cbn; auto). assert (Hc : place st' c = place st c) by (apply L; destruct T as [->|[->| ->]]; cbn; auto).
    pose proof (AD _ _ (place st c) p B) as K. unfold tri_value. destruct T as [->|[->| ->]]; cbn [fst snd]; rewrite Ha, Hb, Hc, Lv.
    + rewrite K. ring.
    + rewrite <- (CY (place st c) (place st a) (place st b)), K. ring.
    + rewrite (CY (place st a) (place st b) (place st c)), K. ring.
  - clear E1 E2. assert (Ha : place st' a = place st a) by (apply L; destruct T as [->|[->| ->]]; cbn; auto). assert (Hb : place st' b = place st b) by (apply L; destruct T as [->|[->| ->]]; cbn; auto). assert (Hd : place st' d = place st d) by (apply L; destruct T as [->|[->| ->]]; cbn; auto).
    assert (K : phi (place st b) (place st a) (place st d) = (phi (place st b) p (place st d) + phi (place st a) (place st d) p)%R).
    { rewrite (AD _ _ (place st d) p (between_sym _ _ _ B)). rewrite (CY p (place st a) (place st d)). rewrite (CY (place st d) (place st b) p). ring. }
    unfold tri_value. destruct T as [->|[->| ->]]; cbn [fst snd]; rewrite Ha, Hb, Hd, Lv.
    + rewrite K. ring.
    + rewrite <- (CY (place st d) (place st b) (place st a)), K. ring.
    + rewrite (CY (place st b) (place st a) (place st d)), K. ring.
  - unfold tri_value. rewrite !L by (destruct t as [[? ?] ?]; cbn; auto). ring.
Qed.

Lemma inside_split a b c v p : between a b v -> inside a b c p <-> inside v b c p \/ inside c a v p.
Proof.
  intros (s & S1 & ->). split.
  - intros (u & w & x & U & W & X & E & ->). destruct (Rle_dec (s * u) (w * (1 - s)))%R as [L|L].
    + left. destruct (Req_dec s 1) as [->|NE].
      * assert (u = 0)%R by lra. subst u. exists 0%R, w, x. repeat split; try lra. destruct a, b, c; apply vec_eq; geo; ring.
      * assert (Q : (0 <= w - s * u / (1 - s))%R). { replace (w - s * u / (1 - s))%R with ((w * (1 - s) - s * u) * / (1 - s))%R by (field; lra). apply Rmult_le_pos; [lra|]. left; apply Rinv_0_lt_compat; lra. }
        exists (u / (1 - s))%R, (w - s * u / (1 - s))%R, x. repeat split; try lra; [apply Rmult_le_pos; [lra|left; apply Rinv_0_lt_compat; lra]|transitivity (u + w + x)%R; [field; lra|exact E]|]. destruct a, b, c; apply vec_eq; geo; field; lra.
    + right. assert (s <> 0)%R by (intros ->; lra).
      assert (Q : (0 <= u - (1 - s) * w / s)%R). { replace (u - (1 - s) * w / s)%R with ((s * u - w * (1 - s)) * / s)%R by (field; lra). apply Rmult_le_pos; [lra|]. left; apply Rinv_0_lt_compat; lra. }
      exists x, (u - (1 - s) * w / s)%R, (w / s)%R. repeat split; try lra; [apply Rmult_le_pos; [lra|left; apply Rinv_0_lt_compat; lra]|transitivity (u + w + x)%R; [field; lra|exact E]|]. destruct a, b, c; apply vec_eq; geo; field; lra.
  - intros [(u & w & x & U & W & X & E & ->)|(u & w & x & U & W & X & E & ->)].
    + exists (u * (1 - s))%R, (w + u * s)%R, x. repeat split; try nra. destruct a, b, c; apply vec_eq; geo; ring.
    + exists (w + x * (1 - s))%R, (x * s)%R, u. repeat split; try nra. destruct a, b, c; apply vec_eq; geo; ring.
Qed.
Lemma inside_turn a b c p : inside a b c p <-> inside b c a p.
Proof.
  split; intros (u & w & x & U & W & X & E & ->); [exists w, x, u|exists x, u, w]; repeat split; try lra; destruct a, b, c; apply vec_eq; geo; ring.
Qed.
Lemma parts_cover st p a b t tgs fs dl q : a <> b -> proper_tri t -> (forall x, In x (corners t) -> x < length (c_verts st)) -> between (place st a) (place st b) p ->
  (exists t', In t' (parts (length (c_verts st)) a b t) /\ let st' := CM (c_verts st ++ [p]) tgs fs dl in inside (place st' (fst (fst t'))) (place st' (snd (fst t'))) (place st' (snd t')) q) <->
  inside (place st (fst (fst t))) (place st (snd (fst t))) (place st (snd t)) q.
Proof.
  intros N P I B. set (st' := CM _ _ _ _). set (v := length (c_verts st)). cbv zeta.
  assert (L : forall x, In x (corners t) -> place st' x = place st x) by (intros x Hx; eapply place_app; [reflexivity|apply I, Hx]).
  assert (Lv : place st' v = p) by apply place_last.
  assert (EX : forall x y (Q : tri -> Prop), (exists t', In t' [x; y] /\ Q t') <-> Q x \/ Q y).
  { intros x y Q. split; [intros (t' & [<-|[<-|[]]] & K); auto|intros [K|K]; eexists; (split; [|exact K]); cbn; auto]. }
  unfold parts, split_keep, split_new0, split_new1. destruct (tri_cases a b t N P) as [c E1 E2 N1 N2 T|d E1 E2 N1 N2 T|E1 E2 N1 N2]; rewrite ?E1, ?E2; cbn [app].
  - clear E1 E2. assert (Ha : place st' a = place st a) by (apply L; destruct T as [->|[->| ->]]; cbn; auto). assert (Hb : place st' b = place st b) by (apply L; destruct T as [->|[->| ->]]; cbn; auto). assert (Hc : place st' c = place st c) by (apply L; destruct T as [->|[->| ->]]; cbn; auto).
    rewrite EX. cbn [fst snd]. rewrite Ha, Hb, Hc, Lv. rewrite <- (inside_split _ _ _ _ _ B). destruct T as [->|[->| ->]]; cbn [fst snd]; [reflexivity| |]; [symmetry; apply inside_turn|apply inside_turn].
  - clear E1 E2. assert (Ha : place st' a = place st a) by (apply L; destruct T as [->|[->| ->]]; cbn; auto). assert (Hb : place st' b = place st b) by (apply L; destruct T as [->|[->| ->]]; cbn; auto). assert (Hd : place st' d = place st d) by (apply L; destruct T as [->|[->| ->]]; cbn; auto).
    rewrite EX. cbn [fst snd]. rewrite Ha, Hb, Hd, Lv.
    assert (K : inside (place st b) p (place st d) q \/ inside (place st a) (place st d) p q <-> inside (place st b) (place st a) (place st d) q).
    { rewrite (inside_split _ _ _ _ _ (between_sym _ _ _ B)). rewrite <- (inside_turn p (place st a) (place st d)), (inside_turn (place st d) (place st b) p). tauto. }
    rewrite K. destruct T as [->|[->| ->]]; cbn [fst snd]; [reflexivity| |]; [symmetry; apply inside_turn|apply inside_turn].
  - rewrite <- !(L (fst (fst t))), <- !(L (snd (fst t))), <- !(L (snd t)) by (destruct t as [[? ?] ?]; cbn; auto). split; [intros (t' & [<-|[]] & K); exact K|intros K; exists t; split; [left; reflexivity|exact K]].
Qed.

Lemma flagged_class tg v t : In v (corners t) -> tg v = VP_ON -> no_under tg t ->
  match ClassifyFace (tg (fst (fst t))) (tg (snd (fst t))) (tg (snd t)) with FPT_120 | FPT_210 | FPT_030 => true | _ => false end = true.
Proof.
  intros H V U. destruct t as [[x y] z]. unfold corners in *. cbn [fst snd] in *.
  pose proof (U x ltac:(cbn; auto)) as Ux. pose proof (U y ltac:(cbn; auto)) as Uy. pose proof (U z ltac:(cbn; auto)) as Uz.
  destruct H as [H|[H|[H|[]]]]; subst v; rewrite V; [destruct (tg y), (tg z)|destruct (tg x), (tg z)|destruct (tg x), (tg y)]; try discriminate; reflexivity.
Qed.
Lemma unflagged_class tg t : match ClassifyFace (tg (fst (fst t))) (tg (snd (fst t))) (tg (snd t)) with FPT_120 | FPT_210 | FPT_030 | FPT_300 => true | _ => false end = true -> no_under tg t.
Proof.
  destruct t as [[x y] z]. intros H w Hw. unfold corners in Hw. cbn [fst snd] in *. destruct Hw as [<-|[<-|[<-|[]]]]; destruct (tg x) eqn:?, (tg y) eqn:?, (tg z) eqn:?; try discriminate; try rewrite Heqv; try rewrite Heqv0; try rewrite Heqv1; reflexivity.
Qed.
Lemma has_vertex_iff v t : has_vertex v t = true <-> In v (corners t).
Proof. unfold has_vertex, corners. cbn [In]. rewrite !orb_true_iff, !Nat.eqb_eq. tauto. Qed.
Lemma half_edge st a b : Inv st -> a < length (c_verts st) -> b < length (c_verts st) -> crosses (tag st) (a, b) = true ->
  exists st', ProcessHalfEdge om sf st (a, b) = Some st' /\ Inv st' /\ Step st st' /\ (forall i, tag st' i = tag st i) /\
    length (c_verts st') = S (length (c_verts st)) /\
    (forall j e, j < length (c_faces st) -> In e (edges_of (face_at st' j)) -> crosses (tag st') e = true -> In e (edges_of (face_at st j)) /\ e <> (a, b) /\ e <> (b, a)) /\
    (forall j, j < length (c_faces st) -> face_at st' j <> face_at st j -> no_under (tag st') (face_at st' j) -> In j (c_del st')).
Proof.
  intros I A B C. pose proof (crosses_sides st a b I A B C) as OP.
  assert (WA := i_world _ I _ (place_in st a A)). assert (WB := i_world _ I _ (place_in st b B)).
  destruct (CUT _ _ WA WB OP) as (p & E & BT & D).
  unfold ProcessHalfEdge. cbn [fst snd]. rewrite E. set (v := length (c_verts st)). set (h0 := if om_first om (a, b) then (a, b) else (b, a)).
  assert (NAB : a <> b) by (intros ->; unfold crosses in C; cbn [fst snd] in C; destruct (tag st b); discriminate).
  assert (H0 : h0 = (a, b) \/ h0 = (b, a)) by (unfold h0; destruct (om_first om (a, b)); auto).
  assert (N0 : fst h0 <> snd h0) by (destruct H0 as [-> | ->]; cbn; auto).
  assert (C0 : crosses (tag st) (fst h0, snd h0) = true) by (destruct H0 as [-> | ->]; cbn [fst snd]; [exact C|]; rewrite <- (crosses_flip (tag st) (a, b)) in C; exact C).
  assert (B0 : between (place st (fst h0)) (place st (snd h0)) p) by (destruct H0 as [-> | ->]; cbn [fst snd]; [exact BT|apply between_sym, BT]).
  set (a0 := fst h0) in *. set (b0 := snd h0) in *.
  set (st1 := CM (c_verts st ++ [p]) (c_tags st ++ [VP_ON]) (split v a0 b0 (c_faces st)) (c_del st)).
  set (st' := FlagVertexAdjacentFacesToBeDeleted st1 v). exists st'. split; [reflexivity|].
  assert (TG : forall i, tag st' i = tag st i) by (intros i; apply tag_app).
  assert (TGE : forall i, tag st1 i = tag st i) by (intros i; apply tag_app).
  assert (TV : tag st v = VP_ON) by (unfold tag; apply nth_overflow; rewrite (i_len _ I); apply le_n).
  assert (PL : forall i, i < v -> place st' i = place st i) by (intros i Hi; eapply place_app; [reflexivity|exact Hi]).
  assert (PV : place st' v = p) by apply place_last.
  assert (FA : forall j, j < length (c_faces st) -> face_at st' j = split_keep v a0 b0 (face_at st j)) by (intros j Hj; unfold face_at; cbn [c_faces st' st1 FlagVertexAdjacentFacesToBeDeleted]; apply split_nth, Hj).
  assert (PT : forall j, j < length (c_faces st) -> proper_tri (face_at st j)) by (intros j Hj; apply (proj1 (Forall_forall _ _) (i_prop _ I)), nth_In, Hj).
  assert (SAME : forall j, j < length (c_faces st) -> done (tag st) (face_at st j) -> face_at st' j = face_at st j).
  { intros j Hj Dn. rewrite (FA j Hj). apply keep_same; intros K; apply Dn in K; [|rewrite <- (crosses_flip (tag st) (b0, a0)) in K; unfold flipn in K; cbn [fst snd] in K]; congruence. }
  assert (UD : forall j, j < length (c_faces st) -> no_under (tag st) (face_at st j) -> done (tag st) (face_at st j)).
  { intros j Hj U e He. assert (X1 : In (fst e) (corners (face_at st j)) /\ In (snd e) (corners (face_at st j))) by (destruct (face_at st j) as [[x y] z]; cbn in He; destruct He as [<-|[<-|[<-|[]]]]; cbn; auto).
    unfold crosses. rewrite (U _ (proj1 X1)), (U _ (proj2 X1)), andb_false_r. reflexivity. }
  assert (FLG : forall j, j < length (c_faces st) -> face_at st' j <> face_at st j -> no_under (tag st') (face_at st' j) -> In j (c_del st')).
  { intros j Hj NE NU. rewrite (FA j Hj) in NE. apply keep_new in NE. rewrite <- (FA j Hj) in NE. cbn [c_del st' FlagVertexAdjacentFacesToBeDeleted]. apply in_or_app. right. apply filter_In. split; [apply in_seq; cbn [c_faces st1]; pose proof (split_length v a0 b0 (c_faces st)); lia|].
        apply andb_true_iff. split; [apply has_vertex_iff; exact NE|]. exact (flagged_class (tag st1) v _ NE (eq_trans (TGE v) TV) NU). }
  split; [|split; [|split; [exact TG|split; [|split; [|exact FLG]]]]].
  - constructor.
    + cbn [c_tags c_verts st' st1 FlagVertexAdjacentFacesToBeDeleted]. rewrite !app_length, (i_len _ I). reflexivity.
    + cbn [c_verts st' st1 FlagVertexAdjacentFacesToBeDeleted]. rewrite app_length. cbn [length]. intros i Hi. rewrite TG. destruct (Nat.eq_dec i v) as [->|NE]; [rewrite PV, TV; exact D|]. rewrite PL by (unfold v in *; lia). apply (i_tag _ I). unfold v in *; lia.
    + cbn [c_faces c_verts st' st1 FlagVertexAdjacentFacesToBeDeleted]. intros t x Ht Hx. rewrite app_length. cbn [length]. apply split_in in Ht as (t0 & T1 & T2). destruct (parts_corners _ _ _ _ _ _ T2 Hx) as [K| ->]; [|unfold v; lia]. pose proof (i_idx _ I _ _ T1 K). lia.
    + cbn [c_faces st' st1 FlagVertexAdjacentFacesToBeDeleted]. apply Forall_forall. intros t Ht. apply split_in in Ht as (t0 & T1 & T2). apply (parts_proper v a0 b0 t0); auto; [apply (proj1 (Forall_forall _ _) (i_prop _ I)), T1|]. intros K. pose proof (i_idx _ I _ _ T1 K). unfold v in *; lia.
    + cbn [c_faces st' st1 FlagVertexAdjacentFacesToBeDeleted]. intros X. apply split_closed; auto; [apply I|apply I, X].
    + cbn [c_verts st' st1 FlagVertexAdjacentFacesToBeDeleted]. intros q Hq. apply in_app_or in Hq as [Hq|[<-|[]]]; [apply I, Hq|]. exact (between_world _ _ _ WA WB BT).
    + intros j Hj. cbn [c_del st' FlagVertexAdjacentFacesToBeDeleted] in Hj. apply in_app_or in Hj as [Hj|Hj].
      * cbn [c_del st1] in Hj. destruct (i_del _ I j Hj) as [J1 J2]. split; [cbn [c_faces st' st1 FlagVertexAdjacentFacesToBeDeleted]; pose proof (split_length v a0 b0 (c_faces st)); lia|].
        rewrite (SAME j J1 (UD j J1 J2)). intros x Hx. rewrite TG. apply J2, Hx.
      * apply filter_In in Hj as [J1 J2]. apply in_seq in J1. split; [cbn [c_faces st' FlagVertexAdjacentFacesToBeDeleted]; lia|]. apply andb_true_iff in J2 as [_ J2].
        change (face_at st' j) with (face_at st1 j). apply (unflagged_class (tag st')). change (tag st') with (tag st1). unfold classify in J2. destruct (ClassifyFace _ _ _); try discriminate; reflexivity.
  - constructor.
    + apply split_length.
    + exact SAME.
    + intros i. left. apply TG.
    + cbn [c_faces st' st1 FlagVertexAdjacentFacesToBeDeleted]. replace (weights (tag st') (split v a0 b0 (c_faces st))) with (weights (tag st) (split v a0 b0 (c_faces st))).
      * apply split_weight; auto. apply I.
      * unfold weights. f_equal. apply map_ext. intros t. unfold weight. do 2 f_equal. apply filter_ext. intros e. unfold crosses. rewrite !TG. reflexivity.
    + cbn [c_del st' FlagVertexAdjacentFacesToBeDeleted]. intros x Hx. apply in_or_app. left. exact Hx.
    + cbn [c_verts st' st1 FlagVertexAdjacentFacesToBeDeleted]. rewrite app_length. lia.
    + intros _ q. unfold cover. cbn [c_faces st' st1 FlagVertexAdjacentFacesToBeDeleted]. split.
      * intros (t & Ht & K). apply split_in in Ht as (t0 & T1 & T2). exists t0. split; [exact T1|]. apply (parts_cover st p a0 b0 t0 (c_tags st ++ [VP_ON]) (split v a0 b0 (c_faces st)) (c_del st) q); auto; [apply (proj1 (Forall_forall _ _) (i_prop _ I)), T1|intros x; apply (i_idx _ I t0 x T1)|]. exists t. split; [exact T2|exact K].
      * intros (t0 & T1 & K). destruct (proj2 (parts_cover st p a0 b0 t0 (c_tags st ++ [VP_ON]) (split v a0 b0 (c_faces st)) (c_del st) q N0 (proj1 (Forall_forall _ _) (i_prop _ I) t0 T1) (fun x => i_idx _ I t0 x T1) B0) K) as (t & T2 & K2).
        exists t. split; [|exact K2]. apply (Permutation_in _ (Permutation_sym (split_parts v a0 b0 (c_faces st)))). apply in_concat. exists (parts v a0 b0 t0). split; [apply in_map, T1|exact T2].
    + intros _. split; [exact TG|]. split; [exact PL|]. split.
      * intros phi AD. unfold value. cbn [c_faces st' st1 FlagVertexAdjacentFacesToBeDeleted]. rewrite (sum_perm _ _ (Permutation_map (tri_value phi st') (split_parts v a0 b0 (c_faces st)))).
        pose proof (i_prop _ I) as PR. pose proof (i_idx _ I) as IX. revert PR IX. generalize (c_faces st). intros fs PR IX. induction PR as [|t fs P1 P2 IH]; [reflexivity|].
        cbn [map concat]. rewrite map_app, sum_app, IH by (intros t0 x Ht; apply IX; right; exact Ht). unfold sum at 3. cbn [fold_right]. fold (sum (map (tri_value phi st) fs)). f_equal.
        apply (parts_value phi st p a0 b0 t); auto. intros x Hx. apply (IX t x); [left; reflexivity|exact Hx].
      * exact FLG.
  - cbn [c_verts st' st1 FlagVertexAdjacentFacesToBeDeleted]. rewrite app_length. cbn [length]. lia.
  - intros j e Hj He Hc. rewrite (FA j Hj) in He. destruct (keep_edges v a0 b0 _ e N0 (PT j Hj) He) as [(K1 & K2 & K3)|K].
    + split; [exact K1|]. destruct H0 as [H0|H0]; unfold a0, b0 in K2, K3; rewrite H0 in K2, K3; cbn [fst snd] in K2, K3; auto.
    + exfalso. rewrite (crosses_on (tag st') v e) in Hc; [discriminate|rewrite TG; exact TV|exact K].
Qed.

(** ** Tests on distances agree with the tags *)
Lemma edge_crossing st a b : Inv st -> a < length (c_verts st) -> b < length (c_verts st) -> IsEdgeCrossing sf thr st a b = crosses (tag st) (a, b).
Proof.
  intros I A B. pose proof (i_tag _ I a A) as TA. pose proof (i_tag _ I b B) as TB. unfold IsEdgeCrossing, crosses. cbn [fst snd].
  set (x := s_dist sf (place st a)) in *. set (y := s_dist sf (place st b)) in *.
  destruct (tag st a), (tag st b); cbn [tagged is_above is_under andb orb] in *; repeat match goal with K : near _ |- _ => apply NEAR in K end; fold x in TA; fold y in TB;
  destruct (Rlt_dec (Rabs x) thr) as [X|X]; destruct (Rlt_dec (Rabs y) thr) as [Y|Y]; try destruct (Rlt_dec (x * y) 0) as [Z|Z]; try reflexivity; exfalso; unfold Rabs in *; repeat destruct (Rcase_abs _); try lra; try nra.
Qed.
Lemma down_crossing st e : Inv st -> fst e < length (c_verts st) -> snd e < length (c_verts st) -> IsHalfEdgeDownCrossing sf thr st e = is_above (tag st (fst e)) && is_under (tag st (snd e)).
Proof.
  intros I A B. pose proof (i_tag _ I _ A) as TA. pose proof (i_tag _ I _ B) as TB. unfold IsHalfEdgeDownCrossing.
  set (x := s_dist sf (place st (fst e))) in *. set (y := s_dist sf (place st (snd e))) in *.
  destruct (tag st (fst e)), (tag st (snd e)); cbn [tagged is_above is_under andb orb] in *; repeat match goal with K : near _ |- _ => apply NEAR in K end; fold x in TA; fold y in TB;
  destruct (Rlt_dec (Rabs x) thr) as [X|X]; destruct (Rlt_dec (Rabs y) thr) as [Y|Y]; try destruct (Rlt_dec 0 x) as [Z|Z]; try destruct (Rlt_dec y 0) as [W|W]; try reflexivity; exfalso; unfold Rabs in *; repeat destruct (Rcase_abs _); try lra.
Qed.
Lemma up_crossing st e : Inv st -> fst e < length (c_verts st) -> snd e < length (c_verts st) -> IsHalfEdgeUpCrossing sf thr st e = is_under (tag st (fst e)) && is_above (tag st (snd e)).
Proof.
  intros I A B. pose proof (i_tag _ I _ A) as TA. pose proof (i_tag _ I _ B) as TB. unfold IsHalfEdgeUpCrossing.
  set (x := s_dist sf (place st (fst e))) in *. set (y := s_dist sf (place st (snd e))) in *.
  destruct (tag st (fst e)), (tag st (snd e)); cbn [tagged is_above is_under andb orb] in *; repeat match goal with K : near _ |- _ => apply NEAR in K end; fold x in TA; fold y in TB;
  destruct (Rlt_dec (Rabs x) thr) as [X|X]; destruct (Rlt_dec (Rabs y) thr) as [Y|Y]; try destruct (Rlt_dec x 0) as [Z|Z]; try destruct (Rlt_dec 0 y) as [W|W]; try reflexivity; exfalso; unfold Rabs in *; repeat destruct (Rcase_abs _); try lra.
Qed.

(** ** Projection *)
Lemma world_length p q : in_world p -> in_world q -> (vnorm (vsub q p) < 10 ^ 10)%R.
Proof.
  intros (A1 & A2 & A3) (B1 & B2 & B3). unfold vnorm. apply Rsqr_incrst_0; [|apply sqrt_pos|lra].
  rewrite Rsqr_sqrt by (generalize (vsub q p); intros [x y z]; unfold vdot; cbn [vx vy vz]; nra).
  unfold vdot, vsub, Rsqr. cbn [vx vy vz]. set (M := (10 ^ 9)%R) in *. assert (E : (10 ^ 10 = 10 * M)%R) by (unfold M; ring). rewrite E. assert (0 < M)%R by (unfold M; apply pow_lt; lra). clearbody M. clear E.
  assert (Q : forall x y, (- M <= x <= M)%R -> (- M <= y <= M)%R -> ((y - x) * (y - x) <= 4 * (M * M))%R).
  { intros x y Hx Hy. assert (0 <= (2 * M - (y - x)) * (2 * M + (y - x)))%R by (apply Rmult_le_pos; lra). lra. }
  pose proof (Q _ _ A1 B1). pose proof (Q _ _ A2 B2). pose proof (Q _ _ A3 B3). nra.
Qed.
Definition acc_ok st v (acc : bool * option vec * R) : Prop :=
  (fst (fst acc) = false -> snd (fst acc) = None /\ snd acc = (10 ^ 10)%R) /\
  (fst (fst acc) = true -> (~ ex) /\ tag st v <> VP_ON /\ exists p, snd (fst acc) = Some p /\ in_world p /\ near p).
Lemma scan_ok st v : Inv st -> v < length (c_verts st) -> forall ns acc, (forall n, In n ns -> n < length (c_verts st)) -> acc_ok st v acc ->
  exists acc', scan_halfedges sf thr ratio st v ns acc = Some acc' /\ acc_ok st v acc'.
Proof.
  intros I Hv. induction ns as [|n ns IH]; intros acc Hn OK; cbn [scan_halfedges]; [eauto|].
  assert (Hn1 : n < length (c_verts st)) by (apply Hn; left; reflexivity). assert (Hn2 : forall k, In k ns -> k < length (c_verts st)) by (intros k Hk; apply Hn; right; exact Hk).
  rewrite (edge_crossing st v n I Hv Hn1). destruct (crosses (tag st) (v, n)) eqn:C; [|apply IH; assumption].
  assert (WA := i_world _ I _ (place_in st v Hv)). assert (WB := i_world _ I _ (place_in st n Hn1)).
  destruct (CUT _ _ WA WB (crosses_sides st v n I Hv Hn1 C)) as (p & E & BT & D). rewrite E. apply IH; [assumption|].
  destruct (Rlt_dec (vnorm (vsub p (place st v))) (vnorm (vsub (place st n) (place st v)) * ratio)) as [L|L]; [|exact OK].
  pose proof (world_length _ _ WA WB) as WL. assert (N0 : (0 <= vnorm (vsub (place st n) (place st v)))%R) by apply sqrt_pos. assert (P0 : (0 <= vnorm (vsub p (place st v)))%R) by apply sqrt_pos.
  assert (NX : ~ ex) by (intros X; apply R0 in X; nra).
  assert (NON : tag st v <> VP_ON) by (intros K; unfold crosses in C; cbn [fst snd] in C; rewrite K in C; discriminate).
  assert (WP : in_world p) by exact (between_world _ _ _ WA WB BT).
  destruct (Rlt_dec (vnorm (vsub p (place st v))) (snd acc)) as [L2|L2].
  - split; cbn [fst snd]; [intros K; discriminate K|]. intros _. split; [exact NX|]. split; [exact NON|]. exists p. auto.
  - split; cbn [fst snd]; [intros K; discriminate K|]. intros _. destruct acc as [[fl po] dm]. destruct OK as [OK1 OK2]. cbn [fst snd] in *. destruct fl; [apply OK2; reflexivity|].
    exfalso. destruct (OK1 eq_refl) as [_ ->]. apply L2. nra.
Qed.
Lemma set_nth_length {A} i (x : A) l : length (set_nth i x l) = length l.
Proof. unfold set_nth. rewrite app_length, firstn_length. pose proof (skipn_length i l). destruct (skipn i l); cbn [length] in *; lia. Qed.
Lemma set_nth_nth {A} i (x d : A) l j : i < length l -> nth j (set_nth i x l) d = if Nat.eqb j i then x else nth j l d.
Proof.
  intros H. unfold set_nth. revert j l H. induction i as [|i IH]; intros j l H; destruct l as [|y l]; cbn [length] in H; try lia.
  - cbn. destruct j; reflexivity.
  - cbn [firstn skipn app]. destruct j as [|j]; [reflexivity|]. cbn [nth Nat.eqb]. apply IH. lia.
Qed.
Lemma set_nth_in {A} i (x : A) l y : In y (set_nth i x l) -> y = x \/ In y l.
Proof.
  unfold set_nth. intros H. apply in_app_or in H as [H|H]; [right; rewrite <- (firstn_skipn i l); apply in_or_app; left; exact H|]. destruct (skipn i l) as [|z r] eqn:E; [destruct H|]. destruct H as [<-|H]; [left; reflexivity|]. right. rewrite <- (firstn_skipn i l), E. apply in_or_app. right. right. exact H.
Qed.
Lemma project_ok st v p : Inv st -> v < length (c_verts st) -> in_world p -> near p -> ~ ex -> Inv (project st v p) /\ Step st (project st v p).
Proof.
  intros I Hv W D NX. assert (TG : forall i, tag (project st v p) i = if Nat.eqb i v then VP_ON else tag st i) by (intros i; unfold tag, project; cbn [c_tags]; apply set_nth_nth; rewrite (i_len _ I); exact Hv).
  assert (TG2 : forall i, tag (project st v p) i = tag st i \/ tag (project st v p) i = VP_ON) by (intros i; rewrite TG; destruct (Nat.eqb i v); auto).
  assert (PL : forall i, place (project st v p) i = if Nat.eqb i v then p else place st i) by (intros i; unfold place, point, project; cbn [c_verts]; apply set_nth_nth; exact Hv).
  split; constructor; cbn [project c_verts c_tags c_faces c_del]; try apply I.
  - rewrite !set_nth_length. apply I.
  - rewrite set_nth_length. intros i Hi. fold (project st v p). rewrite TG, PL. destruct (Nat.eqb i v); [exact D|]. apply (i_tag _ I), Hi.
  - rewrite set_nth_length. apply I.
  - intros q Hq. apply set_nth_in in Hq as [->|Hq]; [exact W|]. apply I, Hq.
  - intros j Hj. destruct (i_del _ I j Hj) as [J1 J2]. split; [exact J1|]. apply (no_under_tags (tag st)); [exact TG2|exact J2].
  - lia.
  - intros; reflexivity.
  - exact TG2.
  - fold (project st v p). unfold weights. induction (c_faces st) as [|t fs IH]; [apply le_n|]. cbn [map]. unfold list_sum in *. cbn [fold_right]. apply Nat.add_le_mono; [|exact IH].
    unfold weight. apply le_n_S. clear IH. induction (edges_of t) as [|e l IH]; [apply le_n|]. cbn [filter].
    assert (K : crosses (tag (project st v p)) e = true -> crosses (tag st) e = true).
    { unfold crosses. destruct (TG2 (fst e)) as [-> | ->]; destruct (TG2 (snd e)) as [-> | ->]; cbn; auto; try discriminate. destruct (tag st (fst e)); discriminate. }
    destruct (crosses (tag (project st v p)) e); [rewrite (K eq_refl); cbn; lia|]. destruct (crosses (tag st) e); cbn; lia.
  - apply incl_refl.
  - rewrite set_nth_length. apply le_n.
  - intros X. contradiction.
  - intros X. contradiction.
Qed.
Definition loose (st : cmesh) (t : tri) : nat := length (filter (fun x => match tag st x with VP_ON => false | _ => true end) (corners t)).
Lemma has_projection st t : Inv st -> In t (c_faces st) ->
  exists b st', HasProjection om sf thr ratio st t = Some (b, st') /\
   (b = true -> ~ ex /\ Inv st' /\ Step st st' /\ c_faces st' = c_faces st /\ loose st' t < loose st t).
Proof.
  intros I Ht. unfold HasProjection. destruct OMc as [OM1 OM2].
  assert (V : forall x, In x (om_vertices om t) -> In x (corners t)) by (destruct t as [[a b] c]; intros x Hx; apply OM1 in Hx; cbn; intuition).
  revert V. generalize (om_vertices om t). induction l as [|v vs IH]; intros V; cbn [scan_vertices].
  { exists false, st. split; [reflexivity|discriminate]. }
  assert (Hv : v < length (c_verts st)) by (apply (i_idx _ I t); [exact Ht|apply V; left; reflexivity]).
  assert (HN : forall n, In n (om_outgoing om (c_faces st) v) -> n < length (c_verts st)).
  { intros n Hn. apply OM2 in Hn. rewrite mesh_allE in Hn. assert (X : forall e, In e (allE (c_faces st)) -> fst e < length (c_verts st) /\ snd e < length (c_verts st)).
    { intros e He. apply allE_in in He as (t' & T1 & T2). destruct t' as [[x y] z]. cbn in T2. split; apply (i_idx _ I (x, y, z)); try exact T1; destruct T2 as [<-|[<-|[<-|[]]]]; cbn; auto. }
    destruct Hn as [Hn|Hn]; apply X in Hn; cbn in Hn; tauto. }
  destruct (scan_ok st v I Hv _ (false, None, (10 ^ 10)%R) HN) as (acc & E & [A1 A2]); [split; cbn; auto; discriminate|].
  rewrite E. destruct acc as [[fl po] dm]. cbn [fst snd] in *. destruct fl.
  - destruct (A2 eq_refl) as (NX & NON & p & -> & W & D). exists true, (project st v p). split; [reflexivity|]. intros _. destruct (project_ok st v p I Hv W D NX) as [I' S'].
    split; [exact NX|]. split; [exact I'|]. split; [exact S'|]. split; [reflexivity|]. unfold loose.
    assert (TG : forall i, tag (project st v p) i = if Nat.eqb i v then VP_ON else tag st i) by (intros i; unfold tag, project; cbn [c_tags]; apply set_nth_nth; rewrite (i_len _ I); exact Hv).
    assert (G : forall l, length (filter (fun x => match tag (project st v p) x with VP_ON => false | _ => true end) l) <= length (filter (fun x => match tag st x with VP_ON => false | _ => true end) l)).
    { clear -TG. induction l as [|x l IH]; [apply le_n|]. cbn [filter]. rewrite TG. destruct (Nat.eqb x v); [destruct (tag st x); cbn [length]; lia|]. destruct (tag st x); cbn [length]; lia. }
    assert (G2 : forall l, In v l -> length (filter (fun x => match tag (project st v p) x with VP_ON => false | _ => true end) l) < length (filter (fun x => match tag st x with VP_ON => false | _ => true end) l)).
    { intros l. induction l as [|x l IHl]; intros H; [destruct H|]. destruct H as [->|H]; cbn [filter].
      - rewrite TG, Nat.eqb_refl. specialize (G l). destruct (tag st v); [cbn [length]; lia|congruence|cbn [length]; lia].
      - specialize (IHl H). cbn [filter] in *. rewrite TG. destruct (Nat.eqb x v); destruct (tag st x); cbn [length]; lia. }
    apply G2, V. left. reflexivity.
  - destruct (A1 eq_refl) as [-> ->]. apply IH. intros x Hx. apply V. right. exact Hx.
Qed.

(** ** One face *)
Lemma face_in st i : i < length (c_faces st) -> In (face_at st i) (c_faces st).
Proof. intros H. apply nth_In, H. Qed.
Lemma corner_edge t e : In e (edges_of t) -> In (fst e) (corners t) /\ In (snd e) (corners t).
Proof. destruct t as [[x y] z]. cbn. intros [<-|[<-|[<-|[]]]]; cbn; auto. Qed.
Lemma process_two st i : Inv st -> i < length (c_faces st) -> classify st (face_at st i) = FPT_102 \/ classify st (face_at st i) = FPT_201 ->
  exists ed eu, FindDowncrossingHalfEdge sf thr st (face_at st i) = ed /\ FindUpcrossingHalfEdge sf thr st (face_at st i) = Some eu /\
    In ed (edges_of (face_at st i)) /\ In eu (edges_of (face_at st i)) /\ crosses (tag st) ed = true /\ crosses (tag st) eu = true /\
    (forall e, In e (edges_of (face_at st i)) -> crosses (tag st) e = true -> e = ed \/ e = eu) /\ ~ no_under (tag st) (face_at st i).
Proof.
  intros I Hi CL. set (t := face_at st i) in *. pose proof (face_in st i Hi) as Ht. fold t in Ht.
  assert (IX : forall x, In x (corners t) -> x < length (c_verts st)) by (intros x; apply (i_idx _ I t x Ht)).
  assert (DC : forall e, In e (edges_of t) -> IsHalfEdgeDownCrossing sf thr st e = is_above (tag st (fst e)) && is_under (tag st (snd e))) by (intros e He; apply corner_edge in He as [H1 H2]; apply down_crossing; auto).
  assert (UC : forall e, In e (edges_of t) -> IsHalfEdgeUpCrossing sf thr st e = is_under (tag st (fst e)) && is_above (tag st (snd e))) by (intros e He; apply corner_edge in He as [H1 H2]; apply up_crossing; auto).
  unfold FindDowncrossingHalfEdge, FindUpcrossingHalfEdge. clearbody t. destruct t as [[x y] z]. unfold classify in CL. unfold edges_of in *. cbn [fst snd firstn find] in *.
  rewrite !DC, !UC by (cbn; auto). cbn [fst snd].
  assert (NU : is_under (tag st x) = true \/ is_under (tag st y) = true \/ is_under (tag st z) = true) by (destruct (tag st x), (tag st y), (tag st z); cbn; auto; destruct CL; discriminate).
  assert (NN : ~ no_under (tag st) (x, y, z)) by (intros U; unfold no_under, corners in U; cbn [fst snd] in U; pose proof (U x ltac:(cbn; auto)); pose proof (U y ltac:(cbn; auto)); pose proof (U z ltac:(cbn; auto)); destruct NU as [NU|[NU|NU]]; congruence).
  destruct (tag st x) eqn:X, (tag st y) eqn:Y, (tag st z) eqn:Z; try (exfalso; destruct CL; discriminate); cbn [is_above is_under andb];
  (eexists _, _; split; [reflexivity|]; split; [reflexivity|]; split; [cbn; auto|]; split; [cbn; auto|]; split; [unfold crosses; cbn [fst snd]; rewrite ?X, ?Y, ?Z; reflexivity|]; split; [unfold crosses; cbn [fst snd]; rewrite ?X, ?Y, ?Z; reflexivity|]; split; [|exact NN]);
  intros e [<-|[<-|[<-|[]]]]; auto; unfold crosses; cbn [fst snd]; rewrite ?X, ?Y, ?Z; discriminate.
Qed.
Lemma process_one st i : Inv st -> i < length (c_faces st) -> classify st (face_at st i) = FPT_111 ->
  exists e, find (fun e => IsEdgeCrossing sf thr st (fst e) (snd e)) (edges_of (face_at st i)) = Some e /\
    In e (edges_of (face_at st i)) /\ crosses (tag st) e = true /\
    (forall e', In e' (edges_of (face_at st i)) -> crosses (tag st) e' = true -> e' = e) /\ ~ no_under (tag st) (face_at st i).
Proof.
  intros I Hi CL. set (t := face_at st i) in *. pose proof (face_in st i Hi) as Ht. fold t in Ht.
  assert (IX : forall x, In x (corners t) -> x < length (c_verts st)) by (intros x; apply (i_idx _ I t x Ht)).
  assert (DC : forall e, In e (edges_of t) -> IsEdgeCrossing sf thr st (fst e) (snd e) = crosses (tag st) (fst e, snd e)) by (intros e He; apply corner_edge in He as [H1 H2]; apply edge_crossing; auto).
  clearbody t. destruct t as [[x y] z]. unfold classify in CL. unfold edges_of in *. cbn [fst snd find] in *.
  pose proof (DC (x, y) ltac:(cbn; auto)) as D1. pose proof (DC (y, z) ltac:(cbn; auto)) as D2. pose proof (DC (z, x) ltac:(cbn; auto)) as D3. cbn [fst snd] in D1, D2, D3. rewrite D1, D2, D3.
  assert (NU : is_under (tag st x) = true \/ is_under (tag st y) = true \/ is_under (tag st z) = true) by (destruct (tag st x), (tag st y), (tag st z); cbn; auto; discriminate).
  assert (NN : ~ no_under (tag st) (x, y, z)) by (intros U; unfold no_under, corners in U; cbn [fst snd] in U; pose proof (U x ltac:(cbn; auto)); pose proof (U y ltac:(cbn; auto)); pose proof (U z ltac:(cbn; auto)); destruct NU as [NU|[NU|NU]]; congruence).
  unfold crosses. cbn [fst snd].
  destruct (tag st x) eqn:X, (tag st y) eqn:Y, (tag st z) eqn:Z; try (exfalso; discriminate); cbn [is_above is_under andb orb];
  (eexists; split; [reflexivity|]; split; [cbn; auto|]; split; [cbn [fst snd]; rewrite ?X, ?Y, ?Z; reflexivity|]; split; [|exact NN]);
  intros e [<-|[<-|[<-|[]]]]; auto; cbn [fst snd]; rewrite ?X, ?Y, ?Z; discriminate.
Qed.
Definition resolved (st' : cmesh) (i : nat) : Prop := done (tag st') (face_at st' i) /\ (no_above (tag st') (face_at st' i) \/ In i (c_del st')) /\ (ex -> no_under (tag st') (face_at st' i) -> In i (c_del st')).
Lemma done_side tg t : done tg t -> no_above tg t \/ no_under tg t.
Proof.
  destruct t as [[x y] z]. unfold done, no_above, no_under, corners, edges_of, crosses. cbn [fst snd]. intros D.
  pose proof (D (x, y) ltac:(cbn; auto)) as D1. pose proof (D (y, z) ltac:(cbn; auto)) as D2. pose proof (D (z, x) ltac:(cbn; auto)) as D3. cbn [fst snd] in *.
  destruct (tg x) eqn:X, (tg y) eqn:Y, (tg z) eqn:Z; try discriminate; first [left; intros w [<-|[<-|[<-|[]]]]; rewrite ?X, ?Y, ?Z; reflexivity | right; intros w [<-|[<-|[<-|[]]]]; rewrite ?X, ?Y, ?Z; reflexivity].
Qed.
Lemma mk_resolved st i : done (tag st) (face_at st i) -> (no_under (tag st) (face_at st i) -> In i (c_del st)) -> resolved st i.
Proof. intros D F. split; [exact D|]. split; [|intros _; exact F]. destruct (done_side _ _ D) as [A|U]; [left; exact A|right; apply F, U]. Qed.
Lemma no_above_tags tg tg' t : (forall i, tg' i = tg i \/ tg' i = VP_ON) -> no_above tg t -> no_above tg' t.
Proof. intros H D x Hx. specialize (D x Hx). destruct (H x) as [-> | ->]; [exact D|reflexivity]. Qed.
Lemma tri_dec (s t : tri) : {s = t} + {s <> t}.
Proof. decide equality; [apply Nat.eq_dec|decide equality; apply Nat.eq_dec]. Qed.
Lemma flag_ok st i : Inv st -> i < length (c_faces st) -> no_under (tag st) (face_at st i) -> Inv (FlagFaceToBeDeleted st i) /\ Step st (FlagFaceToBeDeleted st i).
Proof.
  intros I Hi NU. split.
  - destruct I. constructor; cbn [FlagFaceToBeDeleted c_verts c_tags c_faces c_del]; auto. intros j Hj. apply in_app_or in Hj as [Hj|[<-|[]]]; [apply i_del0, Hj|]. split; [exact Hi|exact NU].
  - constructor; cbn [FlagFaceToBeDeleted c_verts c_tags c_faces c_del]; auto; try lia; try (intros; reflexivity); try (apply incl_appl, incl_refl). intros _. split; [reflexivity|]. split; [reflexivity|]. split; [reflexivity|]. intros j _ K. exfalso. apply K. reflexivity.
Qed.
Lemma no_under_done tg t : no_under tg t -> done tg t.
Proof. intros U e He. apply corner_edge in He as [H1 H2]. unfold crosses. rewrite (U _ H1), (U _ H2), andb_false_r. reflexivity. Qed.
Lemma no_above_done tg t : no_above tg t -> done tg t.
Proof. intros U e He. apply corner_edge in He as [H1 H2]. unfold crosses. rewrite (U _ H1), (U _ H2), andb_false_r. reflexivity. Qed.
Lemma wet_class tg t : match ClassifyFace (tg (fst (fst t))) (tg (snd (fst t))) (tg (snd t)) with FPT_003 | FPT_012 | FPT_021 => true | _ => false end = true -> no_above tg t /\ ~ no_under tg t.
Proof.
  destruct t as [[x y] z]. cbn [fst snd]. intros H. unfold no_above, no_under, corners. cbn [fst snd].
  destruct (tg x) eqn:X, (tg y) eqn:Y, (tg z) eqn:Z; try discriminate; (split; [intros w [<-|[<-|[<-|[]]]]; rewrite ?X, ?Y, ?Z; reflexivity|]);
  intros U; pose proof (U x ltac:(cbn; auto)) as A; pose proof (U y ltac:(cbn; auto)) as B; pose proof (U z ltac:(cbn; auto)) as C; rewrite ?X, ?Y, ?Z in *; discriminate.
Qed.
Lemma process_face fuel : forall st i, Inv st -> i < length (c_faces st) -> loose st (face_at st i) < fuel ->
  exists st', ProcessFace fuel om sf thr ratio i st = Some st' /\ Inv st' /\ Step st st' /\ resolved st' i.
Proof.
  induction fuel as [|fuel IH]; intros st i I Hi L; [lia|]. cbn [ProcessFace]. set (t := face_at st i) in *.
  pose proof (face_in st i Hi) as Ht. fold t in Ht.
  assert (WET : match classify st t with FPT_003 | FPT_012 | FPT_021 => true | _ => false end = true -> resolved st i).
  { intros H. destruct (wet_class (tag st) t H) as [NA NU]. apply mk_resolved; [apply no_above_done, NA|]. intros K. contradiction. }
  assert (DRY : match classify st t with FPT_120 | FPT_210 | FPT_030 | FPT_300 => true | _ => false end = true -> exists st', Some (FlagFaceToBeDeleted st i) = Some st' /\ Inv st' /\ Step st st' /\ resolved st' i).
  { intros H. pose proof (unflagged_class (tag st) t H) as NU. destruct (flag_ok st i I Hi NU) as [I' S']. eexists. split; [reflexivity|]. split; [exact I'|]. split; [exact S'|].
    apply mk_resolved; [apply no_under_done, NU|]. intros _. cbn. apply in_or_app. right. left. reflexivity. }
  assert (PROJ : forall b st1, HasProjection om sf thr ratio st t = Some (b, st1) -> (b = true -> ~ ex /\ Inv st1 /\ Step st st1 /\ c_faces st1 = c_faces st /\ loose st1 t < loose st t) -> b = true ->
     exists st', ProcessFace fuel om sf thr ratio i st1 = Some st' /\ Inv st' /\ Step st st' /\ resolved st' i).
  { intros b st1 _ H Hb. destruct (H Hb) as (NX & I1 & S1 & F1 & L1). assert (FA : face_at st1 i = t) by (unfold face_at; rewrite F1; reflexivity).
    destruct (IH st1 i I1) as (st' & E & I' & S' & RS); [rewrite F1; exact Hi|rewrite FA; unfold t in *; lia|]. exists st'. split; [exact E|]. split; [exact I'|]. split; [exact (step_trans _ _ _ S1 S')|exact RS]. }
  destruct (has_projection st t I Ht) as (b & st1 & E & PR).
  assert (TWO : (classify st t = FPT_102 \/ classify st t = FPT_201) -> exists st', match HasProjection om sf thr ratio st t with
      | None => None
      | Some (true, st') => ProcessFace fuel om sf thr ratio i st'
      | Some (false, _) =>
        match FindUpcrossingHalfEdge sf thr st t with
        | None => None
        | Some heh_up => match ProcessHalfEdge om sf st (FindDowncrossingHalfEdge sf thr st t) with None => None | Some st1 => ProcessHalfEdge om sf st1 heh_up end
        end
      end = Some st' /\ Inv st' /\ Step st st' /\ resolved st' i).
  { intros CL. rewrite E. destruct b; [apply (PROJ true st1 E PR eq_refl)|].
    destruct (process_two st i I Hi CL) as ([d1 d2] & [u1 u2] & Ed & Eu & Id & Iu & Cd & Cu & ALL & NN). fold t in Ed, Eu, Id, Iu, ALL, NN. rewrite Ed, Eu.
    destruct (corner_edge _ _ Id) as [Dd1 Dd2]. destruct (corner_edge _ _ Iu) as [Du1 Du2]. cbn [fst snd] in *.
    destruct (half_edge st d1 d2 I (i_idx _ I _ _ Ht Dd1) (i_idx _ I _ _ Ht Dd2) Cd) as (sa & Ea & Ia & Sa & Ta & La & Ka & Fa). rewrite Ea.
    pose proof (i_idx _ I _ _ Ht Du1) as B1. pose proof (i_idx _ I _ _ Ht Du2) as B2. pose proof (s_len _ _ Sa) as LF.
    destruct (half_edge sa u1 u2 Ia) as (sb & Eb & Ib & Sb & Tb & Lb & Kb & Fb); [lia|lia| |].
    { unfold crosses in *. cbn [fst snd] in *. rewrite !Ta. exact Cu. }
    rewrite Eb. exists sb. split; [reflexivity|]. split; [exact Ib|]. assert (S2 := step_trans _ _ _ Sa Sb). split; [exact S2|]. apply mk_resolved.
    - intros e He. destruct (crosses (tag sb) e) eqn:C; [|reflexivity]. exfalso. destruct (Kb i e ltac:(lia) He C) as (K1 & K2 & K3).
      assert (C' : crosses (tag sa) e = true) by (unfold crosses in *; rewrite !Tb in C; exact C). destruct (Ka i e Hi K1 C') as (K4 & K5 & K6).
      assert (C'' : crosses (tag st) e = true) by (unfold crosses in *; rewrite !Ta in C'; exact C'). destruct (ALL e K4 C'') as [->| ->]; congruence.
    - intros NU. destruct (tri_dec (face_at sb i) (face_at sa i)) as [Q|Q]; [|apply Fb; [lia|exact Q|exact NU]].
      assert (NUa : no_under (tag sa) (face_at sa i)) by (rewrite <- Q; intros x Hx; rewrite <- Tb; apply NU, Hx).
      apply (s_del _ _ Sb). apply Fa; [exact Hi| |exact NUa]. fold t. intros K. apply NN. rewrite <- K. intros x Hx. rewrite <- Ta. apply NUa, Hx. }
  assert (ONE : classify st t = FPT_111 -> exists st', match HasProjection om sf thr ratio st t with
      | None => None
      | Some (true, st') => ProcessFace fuel om sf thr ratio i st'
      | Some (false, _) =>
        match find (fun e => IsEdgeCrossing sf thr st (fst e) (snd e)) (edges_of t) with
        | None => None
        | Some e => ProcessHalfEdge om sf st (if om_first om e then e else (snd e, fst e))
        end
      end = Some st' /\ Inv st' /\ Step st st' /\ resolved st' i).
  { intros CL. rewrite E. destruct b; [apply (PROJ true st1 E PR eq_refl)|].
    destruct (process_one st i I Hi CL) as ([d1 d2] & Ed & Id & Cd & ALL & NN). fold t in Ed, Id, ALL, NN. rewrite Ed.
    destruct (corner_edge _ _ Id) as [Dd1 Dd2]. cbn [fst snd] in *. pose proof (i_idx _ I _ _ Ht Dd1) as B1. pose proof (i_idx _ I _ _ Ht Dd2) as B2.
    assert (HE : exists st', ProcessHalfEdge om sf st (if om_first om (d1, d2) then (d1, d2) else (d2, d1)) = Some st' /\ Inv st' /\ Step st st' /\ (forall i, tag st' i = tag st i) /\
       (forall j e, j < length (c_faces st) -> In e (edges_of (face_at st' j)) -> crosses (tag st') e = true -> In e (edges_of (face_at st j)) /\ e <> (d1, d2)) /\
       (face_at st' i <> face_at st i -> no_under (tag st') (face_at st' i) -> In i (c_del st'))).
    { destruct (om_first om (d1, d2)).
      - destruct (half_edge st d1 d2 I B1 B2 Cd) as (sa & Ea & Ia & Sa & Ta & La & Ka & Fa). exists sa. split; [exact Ea|]. split; [exact Ia|]. split; [exact Sa|]. split; [exact Ta|]. split; [|exact (Fa i Hi)]. intros j e Hj He Hc. destruct (Ka j e Hj He Hc) as (Q1 & Q2 & Q3). auto.
      - destruct (half_edge st d2 d1 I B2 B1) as (sa & Ea & Ia & Sa & Ta & La & Ka & Fa); [rewrite <- (crosses_flip (tag st) (d1, d2)) in Cd; exact Cd|]. exists sa. split; [exact Ea|]. split; [exact Ia|]. split; [exact Sa|]. split; [exact Ta|]. split; [|exact (Fa i Hi)]. intros j e Hj He Hc. destruct (Ka j e Hj He Hc) as (Q1 & Q2 & Q3). auto. }
    destruct HE as (sa & Ea & Ia & Sa & Ta & Ka & Fa). exists sa. split; [exact Ea|]. split; [exact Ia|]. split; [exact Sa|]. apply mk_resolved.
    - intros e He. destruct (crosses (tag sa) e) eqn:C; [|reflexivity]. exfalso. destruct (Ka i e Hi He C) as (K1 & K2). apply K2, ALL; [exact K1|]. unfold crosses in *. rewrite !Ta in C. exact C.
    - intros NU. apply Fa; [|exact NU]. intros K. apply NN. fold t in K. rewrite <- K. intros x Hx. specialize (NU x Hx). rewrite Ta in NU. exact NU. }
  destruct (classify st t) eqn:CL; try (apply DRY; reflexivity); try (apply TWO; auto); try (apply ONE; reflexivity); (exists st; split; [reflexivity|]; split; [exact I|]; split; [apply step_refl|apply WET; reflexivity]).
Qed.

(** ** The loop *)
Lemma loose_bound st t : loose st t < 4.
Proof. unfold loose. pose proof (filter_le (fun x => match tag st x with VP_ON => false | _ => true end) (corners t)) as H. unfold corners in *. cbn [length] in H. lia. Qed.
Lemma clip_loop fuel : forall st i, Inv st -> (forall j, j < i -> j < length (c_faces st) -> resolved st j) -> weights (tag st) (c_faces st) <= fuel + i ->
  exists st', Clip fuel om sf thr ratio i st = Some st' /\ Inv st' /\ Step st st' /\ forall j, j < length (c_faces st') -> resolved st' j.
Proof.
  induction fuel as [|fuel IH]; intros st i I RS W; cbn [Clip].
  - pose proof (weights_length (tag st) (c_faces st)). destruct (Nat.leb_spec (length (c_faces st)) i); [|lia]. exists st. split; [reflexivity|]. split; [exact I|]. split; [apply step_refl|]. intros j Hj. apply RS; lia.
  - destruct (Nat.leb_spec (length (c_faces st)) i) as [L|L]; [exists st; split; [reflexivity|]; split; [exact I|]; split; [apply step_refl|]; intros j Hj; apply RS; lia|].
    destruct (process_face 4 st i I L (loose_bound st _)) as (s1 & E & I1 & S1 & R2). rewrite E. destruct (IH s1 (S i) I1) as (s2 & E2 & I2 & S2 & R3).
    + intros j Hj Hl. destruct (Nat.eq_dec j i) as [->|NE]; [exact R2|]. assert (Hj' : j < i) by lia. assert (Hl' : j < length (c_faces st)) by lia. destruct (RS j Hj' Hl') as (D1 & D3 & D2).
      pose proof (s_done _ _ S1 j Hl' D1) as F. split; [|split]; rewrite F; [apply (done_tags (tag st)); [apply S1|exact D1]| |].
      { destruct D3 as [D3|D3]; [left; apply (no_above_tags (tag st)); [apply S1|exact D3]|right; apply (s_del _ _ S1), D3]. }
      intros X NU. apply (s_del _ _ S1), D2; [exact X|]. destruct (s_exact _ _ S1 X) as (T & _). intros x Hx. rewrite <- T. apply NU, Hx.
    + pose proof (s_mu _ _ S1). lia.
    + exists s2. split; [exact E2|]. split; [exact I2|]. split; [exact (step_trans _ _ _ S1 S2)|exact R3].
Qed.
Lemma init_inv m : (forall a b c, In (a, b, c) (faces m) -> a < length (verts m) /\ b < length (verts m) /\ c < length (verts m)) -> proper (faces m) -> (cl -> borderless (faces m)) -> (forall p, In p (verts m) -> in_world p) -> (forall p, In p (verts m) -> (Rabs (s_dist sf p) < thr)%R -> near p) ->
  Inv (ClipInitialize sf thr m).
Proof.
  intros IX PR CL W NR. constructor; cbn [ClipInitialize c_verts c_tags c_faces c_del].
  - apply map_length.
  - intros i Hi. unfold tag, place, point. cbn [ClipInitialize c_verts c_tags]. rewrite (nth_indep _ VP_ON (ClassifyVertex sf thr vzero)) by (rewrite map_length; exact Hi). rewrite map_nth.
    destruct (classify_vertex sf thr (nth i (verts m) vzero) T0) as (A & B & C). unfold tagged. destruct (ClassifyVertex sf thr (nth i (verts m) vzero)); [apply B; reflexivity|apply NR; [apply nth_In, Hi|apply A; reflexivity]|apply C; reflexivity].
  - intros [[a b] c] x Ht Hx. destruct (IX a b c Ht) as (A & B & C). cbn in Hx. destruct Hx as [<-|[<-|[<-|[]]]]; assumption.
  - apply Forall_forall. intros [[a b] c] Ht. destruct (PR a b c Ht) as (A & B & C). repeat split; assumption.
  - intros X. specialize (CL X). unfold borderless in CL. rewrite mesh_allE in CL. exact CL.
  - exact W.
  - intros j [].
Qed.
End Clipper.
