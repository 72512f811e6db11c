(** Proofs for the visual assets: surface grid, catenary lines. *)
From Coq Require Import Reals List ZArith Bool String Lra Lia.
From Verif Require Import GeoModel GeoSpec SeaModel AstModel AstSpec AstProofs AstProofs2.
Import ListNotations.
Open Scope R_scope.

(** ** Surface grid *)
Lemma sg_app : forall a b g, sg_run (a ++ b) g = (g' <<- sg_run a g; sg_run b g').
Proof. induction a as [|e a IH]; intros b g; [reflexivity|]. cbn [app sg_run rbind]. destruct (sg_StepFinalize e g); cbn [rbind]; [apply IH|reflexivity..]. Qed.
Lemma draped_again : forall e f m, draped e (draped f m) = draped e m.
Proof. intros e f [v t]. unfold draped. cbn [t_vertices t_faces]. f_equal. rewrite map_map. reflexivity. Qed.
(** the surface shown after the history [l] *)
Definition shown_surface (n : nat) (l : list (R -> R -> R)) (m : trimesh) : trimesh :=
  match (List.length l / n)%nat with O => m | S _ => draped (nth (List.length l / n * n - 1)%nat l (fun _ _ => 0)) m end.
Lemma sg_history : forall n t h m, (1 <= n)%nat -> forall l,
  sg_run l (SGrid t (Z.of_nat n) 0 h (Some m)) = Ok (SGrid t (Z.of_nat n) (Z.of_nat (List.length l)) h (Some (shown_surface n l m))).
Proof.
  intros n t h m Hn. induction l as [|e l IH] using rev_ind.
  - cbn [sg_run List.length]. unfold shown_surface. cbn [List.length]. rewrite Nat.div_0_l by lia. reflexivity.
  - rewrite sg_app, IH. cbn [rbind sg_run]. unfold sg_StepFinalize. cbn [sg_current sg_update sg_mesh sg_type sg_height of_option rbind].
    assert (El : List.length (l ++ [e]) = S (List.length l)) by (rewrite app_length; cbn; lia).
    replace (Z.of_nat (List.length l) + 1)%Z with (Z.of_nat (S (List.length l))) by lia.
    rewrite Z.rem_mod_nonneg by lia. rewrite <- Nat2Z.inj_mod.
    replace (Z.eqb (Z.of_nat n) 0) with false by (symmetry; apply Z.eqb_neq; lia). cbn [negb andb].
    set (k := List.length l) in *.
    pose proof (Nat.div_mod_eq (S k) n) as Dm. pose proof (Nat.mod_upper_bound (S k) n ltac:(lia)) as Bm.
    pose proof (Nat.div_mod_eq k n) as Dk. pose proof (Nat.mod_upper_bound k n ltac:(lia)) as Bk.
    destruct (Z.eqb_spec (Z.of_nat (S k mod n)) 0) as [E|E]; cbn [rbind]; do 2 f_equal; rewrite ?El; try reflexivity; f_equal.
    + assert (E0 : (S k mod n = 0)%nat) by lia. change (draped e (shown_surface n l m) = shown_surface n (l ++ [e]) m). unfold shown_surface at 2. rewrite El.
      destruct (S k / n)%nat as [|q] eqn:Q; [exfalso; rewrite E0 in Dm; lia|].
      replace (S q * n - 1)%nat with k by (rewrite E0 in Dm; lia).
      rewrite app_nth2 by (subst k; lia). replace (k - List.length l)%nat with 0%nat by (subst k; lia). cbn [nth].
      unfold shown_surface. destruct (List.length l / n)%nat; [reflexivity|apply draped_again].
    + assert (E0 : (S k mod n <> 0)%nat) by lia.
      assert (Q : (S k / n = k / n)%nat).
      { symmetry. apply (Nat.div_unique (S k) n (k / n) (S (k mod n))); [|lia].
        destruct (Nat.eq_dec (S (k mod n)) n) as [F|F]; [exfalso|lia].
        apply E0. assert (G : (S k = n * S (k / n))%nat) by lia. rewrite G. rewrite Nat.mul_comm. apply Nat.mod_mul. lia. }
      unfold shown_surface. rewrite El. fold k. rewrite Q. destruct (k / n)%nat as [|q] eqn:Q'; [reflexivity|].
      f_equal. rewrite app_nth1; [reflexivity|]. subst k. lia.
Qed.
Lemma sg_still : forall t h m l c, sg_run l (SGrid t 0 c h m) = Ok (SGrid t 0 (c + Z.of_nat (List.length l)) h m).
Proof.
  intros t h m. induction l as [|e l IH]; intro c; cbn [sg_run List.length].
  - rewrite Z.add_0_r. reflexivity.
  - unfold sg_StepFinalize. cbn [sg_current sg_update sg_mesh sg_type sg_height Z.eqb negb andb rbind]. rewrite IH. do 2 f_equal. lia.
Qed.

(** ** Catenary lines *)
Lemma sampled_spec : forall (f : nat -> R) l m0, let big := fold_left (fun m i => let t := f i in if Rlt_dec m t then t else m) l m0 in
  m0 <= big /\ (forall i, In i l -> f i <= big) /\ (big = m0 \/ exists i, In i l /\ big = f i).
Proof.
  intros f. induction l as [|x l IH]; intros m0; cbn [fold_left].
  - split; [lra|]. split; [intros i []|left; reflexivity].
  - cbn zeta in *. set (m1 := if Rlt_dec m0 (f x) then f x else m0). destruct (IH m1) as (A & B & C). fold m1.
    assert (M : m0 <= m1 /\ f x <= m1 /\ (m1 = m0 \/ m1 = f x)) by (unfold m1; destruct (Rlt_dec m0 (f x)); (split; [lra|split; [lra|]]); [right|left]; reflexivity).
    destruct M as (M1 & M2 & M3). split; [lra|]. split.
    + intros i [<-|Hi]; [lra|apply B, Hi].
    + destruct C as [C|(i & Hi & C)]; [|right; exists i; split; [right; exact Hi|exact C]].
      destruct M3 as [M3|M3]; [left; lra|right; exists x; split; [left; reflexivity|lra]].
Qed.
Section line.
Variables (c : cline) (n : nat).
Hypothesis (HL : 0 < cl_length c) (Hn : (2 <= n)%nat).
Let L := cl_length c.
Let ds := L / INR n.
Let at_ (i : nat) := INR i * ds.
Lemma lin_n : 0 < INR n. Proof using HL Hn. apply lt_0_INR. lia. Qed.
Lemma lds : 0 < ds. Proof using HL Hn. apply Rdiv_lt_0_compat; [exact HL|apply lin_n]. Qed.
Lemma lat_n : at_ n = L. Proof using HL Hn. unfold at_, ds. pose proof lin_n. field. lra. Qed.
Lemma lat_S : forall i, at_ (S i) = at_ i + ds. Proof using HL Hn. intro i. unfold at_. rewrite S_INR. ring. Qed.
Lemma lat_yes : forall i, (S i <= n)%nat -> at_ i <= L - ds.
Proof using HL Hn.
  intros i Hi. pose proof lds as D. rewrite <- lat_n. assert (G : at_ (S i) <= at_ n) by (unfold at_; apply Rmult_le_compat_r; [lra|apply le_INR, Hi]).
  rewrite lat_S in G. lra.
Qed.
Lemma lat_no : ~ at_ n <= L - ds. Proof using HL Hn. pose proof lds as D. rewrite lat_n. lra. Qed.
Definition seg_at (max : R) (i : nat) : segment := a_segment c max (at_ i) (at_ (S i)) (cl_pos c (at_ i)) (cl_pos c (at_ (S i))).
Lemma loop_run : forall max k i fuel, (i + k + 1 = n)%nat -> (k <= fuel)%nat ->
  line_loop fuel c max ds (at_ i) (at_ (S i)) (cl_pos c (at_ i)) = Ok (map (seg_at max) (seq i k), at_ (i + k), cl_pos c (at_ (i + k))).
Proof using HL Hn.
  intro max. induction k as [|k IH]; intros i fuel Hi Hf.
  - assert (E : S i = n) by lia. destruct fuel; cbn [line_loop seq map]; destruct (Rle_dec (at_ (S i)) (cl_length c - ds)) as [G|G];
      try (exfalso; rewrite E in G; exact (lat_no G)); rewrite Nat.add_0_r; reflexivity.
  - destruct fuel as [|fuel]; [lia|]. cbn [line_loop seq map]. destruct (Rle_dec (at_ (S i)) (cl_length c - ds)) as [G|G]; [|exfalso; apply G, lat_yes; lia].
    replace (at_ (S i) + ds) with (at_ (S (S i))) by apply lat_S. rewrite (IH (S i) fuel) by lia. cbn [rbind fst snd].
    replace (S i + k)%nat with (i + S k)%nat by lia. reflexivity.
Qed.
Lemma line_made : forall fuel max, (n <= fuel)%nat -> line_Initialize fuel c n max = Ok (map (seg_at (InitRangeTensionColor c n max)) (seq 0 n)).
Proof using HL Hn.
  intros fuel max Hf. unfold line_Initialize. set (mx := InitRangeTensionColor c n max). cbv zeta.
  pose proof (loop_run mx (n - 1) 0 fuel ltac:(lia) ltac:(lia)) as E.
  assert (A0 : at_ 0 = 0) by (unfold at_; cbn [INR]; ring). assert (A1 : at_ 1 = ds) by (unfold at_; cbn [INR]; ring).
  rewrite A0, A1 in E. fold L. fold ds. rewrite E. cbn [rbind Nat.add].
  assert (Sp : seq 0 (n - 1) = seq 0 (n - 2) ++ [(n - 2)%nat]) by (replace (n - 1)%nat with (S (n - 2)) by lia; rewrite seq_S; reflexivity).
  assert (V0 : vat (rev (map (seg_at mx) (seq 0 (n - 1)))) 0 = Ok (seg_at mx (n - 2))).
  { rewrite Sp, map_app, rev_app_distr. reflexivity. }
  rewrite V0. cbn [rbind]. cbn [seg_at a_segment g_s1].
  replace (S (n - 2)) with (n - 1)%nat by lia.
  assert (An : at_ (n - 1) + ds = L) by (rewrite <- lat_S; replace (S (n - 1)) with n by lia; apply lat_n).
  pose proof lds as D. destruct (Rlt_dec (at_ (n - 1)) L) as [G|G]; [|exfalso; lra].
  assert (Sn : seq 0 n = seq 0 (n - 1) ++ [(n - 1)%nat]) by (replace n with (S (n - 1)) at 1 by lia; rewrite seq_S; reflexivity).
  rewrite Sn, map_app. cbn [map]. f_equal. f_equal. unfold seg_at. replace (S (n - 1)) with n by lia. rewrite lat_n. reflexivity.
Qed.
Lemma step_seg : forall c' max k i, line_step c' (cl_pos c' (at_ i)) (map (seg_at max) (seq i k)) =
  map (fun i => a_segment c' max (at_ i) (at_ (S i)) (cl_pos c' (at_ i)) (cl_pos c' (at_ (S i)))) (seq i k).
Proof using HL Hn. intros c' max. induction k as [|k IH]; intro i; cbn [seq map line_step]; [reflexivity|]. cbn [seg_at a_segment g_s0 g_s1 g_max]. rewrite IH. reflexivity. Qed.
Lemma line_moved : forall c' max, line_StepFinalize c' (map (seg_at max) (seq 0 n)) =
  map (fun i => a_segment c' max (at_ i) (at_ (S i)) (cl_pos c' (at_ i)) (cl_pos c' (at_ (S i)))) (seq 0 n).
Proof using HL Hn.
  intros c' max. unfold line_StepFinalize. assert (A0 : at_ 0 = 0) by (unfold at_; cbn [INR]; ring). rewrite <- A0. apply step_seg.
Qed.
Lemma nth_mapped : forall (A : Type) (f : nat -> A) i d, (i < n)%nat -> nth i (map f (seq 0 n)) d = f i.
Proof using. intros A f i d Hi. rewrite (nth_indep _ d (f 0%nat)) by (rewrite map_length, seq_length; exact Hi). rewrite map_nth, seq_nth by exact Hi. reflexivity. Qed.
Lemma drawn_max : exists big, (forall i, (i < n)%nat -> cl_tension c (INR i * (cl_length c / INR n)) <= big) /\
  (exists i, (i < n)%nat /\ big = cl_tension c (INR i * (cl_length c / INR n))) /\ sampled_max c n = big.
Proof using HL Hn.
  exists (sampled_max c n). unfold sampled_max. cbv zeta. fold L. fold ds.
  destruct (sampled_spec (fun i => cl_tension c (INR i * ds)) (seq 1 (n - 1)) (cl_tension c 0)) as (A & B & C). cbn zeta in A, B, C.
  assert (Z0 : INR 0 * ds = 0) by (cbn [INR]; ring). repeat split.
  - intros [|i] Hi; [rewrite Z0; exact A|]. apply B, in_seq. lia.
  - destruct C as [C|(i & Hi & C)]; [exists 0%nat; split; [lia|rewrite Z0; exact C]|exists i; apply in_seq in Hi; split; [lia|exact C]].
Qed.
End line.
