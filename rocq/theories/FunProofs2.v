(** Lemmas behind the property theorems on function objects. *)
From Coq Require Import Reals List Lra Lia.
From Coquelicot Require Import Coquelicot.
From Verif Require Import FunModel FunSpec FunProofs.
Import ListNotations.
Open Scope R_scope.

Lemma off_get b q e s x : ok b e s -> off (top e (fst (get q e s x))) = off (top e s).
Proof. intros H. apply (eval_ok b e s (x - off (top e s)) H). Qed.

Lemma off_runq b h e s : ok b e s -> ok b e (runq h e s) /\ off (top e (runq h e s)) = off (top e s).
Proof.
  revert s; induction h as [|[q x] h IH]; intros s H; simpl; [auto|].
  destruct (IH (fst (get q e s x)) (ok_get b q e s x H)) as [A B].
  rewrite (off_get b q e s x H) in B. auto.
Qed.

Lemma answer_two b q e s1 s2 x : ok b e s1 -> ok b e s2 -> q = QY \/ b = true ->
  offset e s1 = offset e s2 -> answer q e s1 x = answer q e s2 x.
Proof.
  unfold answer, offset. intros H1 H2 Hq Ho.
  rewrite (get_val b q e s1 x H1 Hq), (get_val b q e s2 x H2 Hq), Ho. reflexivity.
Qed.

Lemma hist_full e s h q x : reachU e s -> answer q e (runq h e s) x = answer q e s x.
Proof.
  intros H. apply reachU_ok in H. destruct (off_runq true h e s H) as [A B].
  apply (answer_two true); auto.
Qed.
Lemma hist_value e s h x : reach e s -> noClampClamp e -> answer QY e (runq h e s) x = answer QY e s x.
Proof.
  intros H N. apply reach_ok in H; [|exact N]. destruct (off_runq false h e s H) as [A B].
  apply (answer_two false); auto.
Qed.
Lemma two_full e s1 s2 q x : reachU e s1 -> reachU e s2 -> offset e s1 = offset e s2 ->
  answer q e s1 x = answer q e s2 x.
Proof. intros H1 H2. apply (answer_two true); auto using reachU_ok. Qed.
Lemma two_value e s1 s2 x : reach e s1 -> reach e s2 -> noClampClamp e -> offset e s1 = offset e s2 ->
  answer QY e s1 x = answer QY e s2 x.
Proof. intros H1 H2 N. apply (answer_two false); auto using reach_ok. Qed.
Lemma textbook e s h x : reachU e s -> noAsinh e ->
  answer QY e (runq h e s) x = den e (x - offset e s).
Proof.
  intros H N. rewrite (hist_full e s h QY x H). unfold answer, offset.
  rewrite (get_val true QY e s x (reachU_ok e s H) (or_introl eq_refl)). apply vy_den; exact N.
Qed.
Lemma textbook_reach e s h x : reach e s -> noClampClamp e -> noAsinh e ->
  answer QY e (runq h e s) x = den e (x - offset e s).
Proof.
  intros H NC N. rewrite (hist_value e s h x H NC). unfold answer, offset.
  rewrite (get_val false QY e s x (reach_ok e s H NC) (or_introl eq_refl)). apply vy_den; exact N.
Qed.

Lemma D_shift (f : R -> R) (a x l : R) : is_derive f (x - a) l -> is_derive (fun t => f (t - a)) x l.
Proof.
  intros H. apply (D_comp f (fun t => t - a) x l 1 l); [exact H| |toR; ring].
  auto_derive; [auto|toR; ring].
Qed.

Lemma derivs e s x : reachU e s -> noAsinh e -> regular e (x - offset e s) ->
  derivable_pt_lim (fun t => answer QY e s t) x (answer QD e s x) /\
  derivable_pt_lim (fun t => answer QD e s t) x (answer QDD e s x).
Proof.
  intros H N Rg. apply reachU_ok in H. unfold offset in Rg.
  destruct (val_derive e N _ Rg) as [A B].
  assert (E : forall q t, answer q e s t = match q with QY => vy e (t - off (top e s)) | QD => vd e (t - off (top e s))
                      | QDD => vdd e (t - off (top e s)) end).
  { intros q t. apply (get_val true); auto. }
  rewrite !E. split; apply is_derive_Reals.
  - apply (D_ext_loc (fun t => vy e (t - off (top e s)))).
    + apply filter_forall; intros t; rewrite E; reflexivity.
    + apply D_shift; exact A.
  - apply (D_ext_loc (fun t => vd e (t - off (top e s)))).
    + apply filter_forall; intros t; rewrite E; reflexivity.
    + apply D_shift; exact B.
Qed.

(** ** refutations around clamps *)
Ltac dec := repeat match goal with
  | |- context [Rle_dec ?a ?b] => destruct (Rle_dec a b); try lra
  | |- context [Req_EM_T ?a ?b] => destruct (Req_EM_T a b); try lra
  end.

Lemma isEval_hit c x : cx c = Some x -> isEval c x = true.
Proof. unfold isEval. intros ->. destruct (Req_EM_T x x); congruence. Qed.
Lemma clamp_hit d xc f s q x : inClamp d xc (x - off (fst s)) = false -> cx (fst s) = Some (x - off (fst s)) ->
  answer q (Clamp d xc f) s x = readq q (fst s).
Proof.
  intros H K. unfold answer, get, ask. cbn [snd top eval]. rewrite H, (isEval_hit _ _ K). reflexivity.
Qed.
Lemma clamp_hit_in d xc f s q x : inClamp d xc (x - off (fst s)) = true -> cx (fst s) = Some xc ->
  answer q (Clamp d xc f) s x = readq q (fst s).
Proof.
  intros H K. unfold answer, get, ask. cbn [snd top eval]. rewrite H, (isEval_hit _ _ K). reflexivity.
Qed.
Lemma un_hit o f s q x : cx (fst s) = Some (x - off (fst s)) -> answer q (Un o f) s x = readq q (fst s).
Proof.
  intros K. unfold answer, get, ask. cbn [snd top eval]. rewrite (isEval_hit _ _ K). reflexivity.
Qed.

(** x, queried at 5, then clamped after 3, then clamped before 0. *)
Definition badExpr := Clamp Before 0 (Clamp After 3 Var).
Definition badState : state badExpr :=
  newClamp Before 0 _ (newClamp After 3 _ (fst (get QY Var newVar 5))).
Definition goodState : state badExpr := newClamp Before 0 _ (newClamp After 3 _ newVar).
Lemma bad_reach : reach badExpr badState. Proof. repeat constructor. Qed.
Lemma good_reach : reachU badExpr goodState. Proof. repeat constructor. Qed.
Lemma bad_answer : answer QY badExpr badState 5 = 5.
Proof.
  unfold badExpr. rewrite clamp_hit.
  - change (5 - 0 = 5). ring.
  - change (off (fst badState)) with 0. unfold inClamp. dec; reflexivity.
  - reflexivity.
Qed.
Lemma good_answer : answer QY badExpr goodState 5 = 3.
Proof.
  unfold goodState. change (answer QY badExpr (runq nil badExpr goodState) 5 = 3).
  rewrite textbook; [|apply good_reach|simpl; auto]. change (offset badExpr goodState) with 0. simpl. dec; lra.
Qed.

(** derivative at the bound of a clamp built on a function last queried at the bound *)
Definition badD : state (Clamp After 3 Var) := newClamp After 3 _ (fst (get QY Var newVar 3)).
Lemma badD_reach : reach _ badD. Proof. repeat constructor. Qed.
Lemma badD_answer : answer QD (Clamp After 3 Var) badD 4 = 1.
Proof.
  rewrite clamp_hit_in.
  - reflexivity.
  - change (off (fst badD)) with 0. unfold inClamp. dec; reflexivity.
  - change (Some (3 - 0) = Some 3). f_equal. ring.
Qed.

(** ** C03 *)
Lemma offset_direct a e s q x : reachU e s -> offset e s = 0 ->
  answer q e (setOff a e s) x = answer q e s (x - a).
Proof.
  intros H Ho. apply reachU_ok in H. unfold answer, offset in *.
  rewrite (get_val true q e (setOff a e s) x) by (auto using ok_setOff).
  rewrite (get_val true q e s (x - a)) by auto.
  assert (K : off (top e (setOff a e s)) = a) by (destruct e; reflexivity).
  rewrite K, Ho, Rminus_0_r. reflexivity.
Qed.
(** any copy of the object forgets the offset *)
Lemma offset_copy a e s q x : reachU e s -> answer q e (clone e (setOff a e s)) x = answer q e (clone e s) x.
Proof.
  intros H. apply two_full; [repeat constructor; exact H|constructor; exact H|].
  unfold offset. rewrite !off_clone. reflexivity.
Qed.

(** ** C04 *)
Lemma acosh_lt_asinh u : 1 <= u -> c_acosh u < arcsinh u.
Proof.
  intros H. unfold c_acosh, arcsinh. assert (0 <= sqrt (u * u - 1)) by apply sqrt_pos.
  apply ln_increasing; [lra|]. apply Rplus_lt_compat_l. apply sqrt_lt_1; nra.
Qed.
Lemma asinh_value f s x : reachU f s ->
  answer QY (Un UASinh f) (newUn UASinh f s) x = c_acosh (answer QY f (clone f s) x).
Proof.
  intros H. unfold answer. rewrite (get_val true) by (auto using ok_newUn, reachU_ok).
  rewrite (get_val true) by (auto using ok_clone, reachU_ok).
  rewrite off_clone. unfold vy; cbn. destruct (val3 f (x - 0)) as [[? ?] ?]. reflexivity.
Qed.
Lemma asinh_wrong f s x : reachU f s -> 1 <= answer QY f (clone f s) x ->
  sinh (answer QY (Un UASinh f) (newUn UASinh f s) x) <> answer QY f (clone f s) x.
Proof.
  intros H K E. rewrite (asinh_value f s x H) in E.
  assert (L := acosh_lt_asinh _ K). rewrite <- E in L at 2. rewrite arcsinh_sinh in L. lra.
Qed.
Lemma asinh_derivative f s x : reachU f s ->
  answer QD (Un UASinh f) (newUn UASinh f s) x =
    answer QD f (clone f s) x * / sqrt (answer QY f (clone f s) x ^ 2 + 1).
Proof.
  intros H. unfold answer. rewrite (get_val true QD) by (auto using ok_newUn, reachU_ok).
  rewrite !(get_val true) by (auto using ok_clone, reachU_ok).
  rewrite off_clone. unfold vy, vd; cbn. destruct (val3 f (x - 0)) as [[u ?] ?]. cbn.
  rewrite Rmult_1_r. reflexivity.
Qed.

(** ** C05 *)
Definition sinx : expr := Un USin Var.
Lemma compound_wrong :
  match compound BAdd sinx (newUn USin Var newVar) (Cst 1) (newCst 1) with
  | Some (existT e' s') => answer QY e' s' 0 = sin 1
  | None => False
  end.
Proof.
  unfold compound, sinx. unfold answer.
  rewrite (get_val true QY).
  - cbn. f_equal. lra.
  - cbn. repeat split; try discriminate; intros; discriminate.
  - left; reflexivity.
Qed.
Lemma sin1 : sin 1 <> sin 0 + 1.
Proof. rewrite sin_0. assert (H := sin_lt_x 1). lra. Qed.

(** ** C07 *)
Lemma ask3_val e s x : ok true e s -> off (top e s) = 0 ->
  snd (ask3 (eval e) (top e) s x) = (vy e x, vd e x, vdd e x).
Proof.
  intros H Ho. destruct (ask3_ok true e (eval_ok true e) s x H Ho) as (_ & _ & _ & E).
  rewrite (E eq_refl). unfold vy, vd, vdd. destruct (val3 e x) as [[? ?] ?]; reflexivity.
Qed.
Lemma get_clone e s x q : ok true e s ->
  answer q e (clone e s) x = match q with QY => vy e x | QD => vd e x | QDD => vdd e x end.
Proof.
  intros H. unfold answer. rewrite (get_val true) by (auto using ok_clone). rewrite off_clone, Rminus_0_r. reflexivity.
Qed.
Definition satAns (o : satObj) (x : R) : ext * R * R := snd (satEval o x).
Lemma sat_both f s ymin ymax x : reachU f s -> ymin <= ymax ->
  let y := answer QY f (clone f s) x in
  let r := satAns (saturate_both f s ymin ymax) x in
  fst (fst r) = Fin (Rmax ymin (Rmin ymax y)) /\
  (ymin < y < ymax -> snd (fst r) = answer QD f (clone f s) x /\ snd r = answer QDD f (clone f s) x) /\
  (y < ymin \/ ymax < y -> snd (fst r) = 0 /\ snd r = 0).
Proof.
  intros H L. apply reachU_ok in H. cbn zeta. rewrite !get_clone by exact H.
  unfold satAns, satEval, saturate_both, satSetYMax, satSetYMin, satNew. cbn [s_min s_max s_expr s_state snd fst].
  rewrite ask3_val by (auto using ok_clone, off_clone). cbn [fst snd].
  cbn [ext_leb]. destruct (Rle_dec (vy f x) ymin) as [A|A]; cbn [ext_leb].
  - destruct (Rle_dec ymax ymin) as [B|B]; cbn [fst snd].
    + split; [f_equal; rewrite Rmin_right, Rmax_left; lra|]. split; [lra|auto].
    + split; [f_equal; rewrite Rmin_right, Rmax_left; lra|]. split; [lra|auto].
  - destruct (Rle_dec ymax (vy f x)) as [B|B]; cbn [fst snd].
    + split; [f_equal; rewrite Rmin_left, Rmax_right; lra|]. split; [lra|auto].
    + split; [f_equal; rewrite Rmin_right, Rmax_right; lra|]. split; [auto|lra].
Qed.
Lemma sat_high_const f s ymax x : fst (fst (satAns (saturate_high f s ymax) x)) = Fin ymax.
Proof.
  unfold satAns, satEval, saturate_high, satSetYMax, satNew. cbn [s_min s_max s_expr s_state snd fst].
  destruct (ask3 _ _ _ _) as [s' [[y d] dd]]. reflexivity.
Qed.
Lemma sat_low_const f s ymin x : fst (fst (satAns (saturate_low f s ymin) x)) = MInf.
Proof.
  unfold satAns, satEval, saturate_low, satSetYMin, satNew. cbn [s_min s_max s_expr s_state snd fst].
  destruct (ask3 _ _ _ _) as [s' [[y d] dd]]. cbn [fst snd ext_leb].
  destruct (Rle_dec y ymin); reflexivity.
Qed.

(** ** C09 *)
Lemma lin_setters_ignored i k i' k' x : snd (linGet QY (linSet i' k' (linNew i k)) x) = k * x + i.
Proof.
  unfold linGet, linSet, linNew. cbn [l_expr l_state l_int l_slope snd].
  rewrite (get_val true QY).
  - cbn. ring.
  - cbn. repeat split; try discriminate; intros; discriminate.
  - left; reflexivity.
Qed.

(** ** C10: width 1, height 1, query the interior point, then below, then the interior point again *)
Definition tput (o : tanhObj) c := mkTanh (t_off o) (t_w o) (t_h o) (t_y o) (t_a o) c.
Lemma tanhEval_low o x : x <= t_off o -> tanhEval o x = tput o (fst (t_cell o), (t_y o, 0, 0)).
Proof. intros H. unfold tanhEval. destruct (Rle_dec x (t_off o)); [reflexivity|lra]. Qed.
Lemma tanhEval_hit o x : t_off o < x < t_off o + t_w o -> fst (t_cell o) = Some x -> tanhEval o x = o.
Proof.
  intros H K. unfold tanhEval. destruct (Rle_dec x (t_off o)); [lra|].
  destruct (Rle_dec (t_off o + t_w o) x); [lra|]. rewrite K. destruct (Req_EM_T x x); congruence.
Qed.
Lemma tanhEval_new o x : t_off o < x < t_off o + t_w o -> fst (t_cell o) = None ->
  let alpha := 2 * t_a o * x / t_w o - t_a o in
  tanhEval o x = tput o (Some x, (/ 2 * t_h o * (1 + tanh alpha) + t_y o,
       (t_h o * t_a o / t_w o) / (cosh alpha * cosh alpha), 0)).
Proof.
  intros H K. unfold tanhEval. destruct (Rle_dec x (t_off o)); [lra|].
  destruct (Rle_dec (t_off o + t_w o) x); [lra|]. rewrite K. reflexivity.
Qed.
Lemma tanh_history tol h w : 0 < w ->
  let o := tanhNew tol 0 0 w h in
  let x := w / 2 in
  let o1 := fst (tanhGet o x) in
  let o2 := fst (tanhGet o1 (-1)) in
  snd (tanhGet o x) = h / 2 /\ snd (tanhGet o2 x) = 0.
Proof.
  intros Hw. cbn zeta. set (o := tanhNew tol 0 0 w h). set (x := w / 2).
  assert (E : tanhEval o (x - 0) = tput o (Some (x - 0), (/ 2 * t_h o * (1 + tanh 0) + t_y o,
       (t_h o * t_a o / t_w o) / (cosh 0 * cosh 0), 0))).
  { rewrite tanhEval_new; [|split; subst o x; unfold tanhNew; cbn [t_off t_w]; lra|reflexivity]. cbn zeta.
    replace (2 * t_a o * (x - 0) / t_w o - t_a o) with 0; [reflexivity|].
    subst x. change (t_w o) with (w - 0). field. lra. }
  unfold tanhGet. change (t_off o) with 0. rewrite E. cbn [fst snd t_off tput t_cell]. change (t_off o) with 0.
  split.
  - replace (tanh 0) with 0 by (unfold tanh; rewrite sinh_0; unfold Rdiv; ring). change (t_h o) with (h - 0). change (t_y o) with 0. field.
  - rewrite (tanhEval_low _ (-1 - 0)) by (cbn [t_off tput]; change (t_off o) with 0; lra).
    cbn [fst snd t_off tput t_cell t_w t_h t_y t_a]. change (t_off o) with 0.
    rewrite tanhEval_hit.
    + reflexivity.
    + cbn [t_off tput t_w]. change (t_off o) with 0. change (t_w o) with (w - 0). subst x. lra.
    + reflexivity.
Qed.

(** ** C49: reconfiguration *)
Lemma pow_stale :
  answer QY (Un (UPow 3) Var) (setPow 2 3 Var (fst (get QY (Un (UPow 2) Var) (newUn _ _ newVar) 2))) 2 = 4.
Proof.
  rewrite un_hit.
  - change (c_pow (2 - 0 - 0) 2 = 4). replace (2 - 0 - 0) with 2 by ring.
    change 2 with (INR 2) at 2. rewrite c_pow_N. simpl. lra.
  - reflexivity.
Qed.

(** positive part for the tanh ramp: histories of interior queries *)
Definition tInterior (o : tanhObj) (x : R) : Prop := t_off o < x - t_off o < t_off o + t_w o.
Definition tanhVal (o : tanhObj) (x : R) : R :=
  / 2 * t_h o * (1 + tanh (2 * t_a o * (x - t_off o) / t_w o - t_a o)) + t_y o.
Definition tOk (o : tanhObj) : Prop :=
  forall x, fst (t_cell o) = Some (x - t_off o) -> fst (fst (snd (t_cell o))) = tanhVal o x.
Definition tSame (o o' : tanhObj) := t_off o = t_off o' /\ t_w o = t_w o' /\ t_h o = t_h o' /\ t_y o = t_y o' /\ t_a o = t_a o'.
Fixpoint tRun (h : list R) (o : tanhObj) : tanhObj :=
  match h with nil => o | cons x h' => tRun h' (fst (tanhGet o x)) end.
Lemma tanh_step o x : tOk o -> tInterior o x ->
  tOk (fst (tanhGet o x)) /\ tSame o (fst (tanhGet o x)) /\ snd (tanhGet o x) = tanhVal o x.
Proof.
  intros H I. unfold tanhGet. cbn [fst snd]. unfold tInterior in I.
  assert (N : fst (t_cell o) <> Some (x - t_off o) ->
    tanhEval o (x - t_off o) = tput o (Some (x - t_off o), (tanhVal o x,
       (t_h o * t_a o / t_w o) / (cosh (2 * t_a o * (x - t_off o) / t_w o - t_a o) * cosh (2 * t_a o * (x - t_off o) / t_w o - t_a o)), 0))).
  { intros Hn. unfold tanhEval. destruct (Rle_dec (x - t_off o) (t_off o)); [lra|].
    destruct (Rle_dec (t_off o + t_w o) (x - t_off o)); [lra|].
    destruct (fst (t_cell o)) as [x0|]; [|reflexivity].
    destruct (Req_EM_T x0 (x - t_off o)) as [->|]; [congruence|reflexivity]. }
  assert (D : fst (t_cell o) = Some (x - t_off o) \/ fst (t_cell o) <> Some (x - t_off o)).
  { destruct (fst (t_cell o)) as [x0|]; [|right; discriminate].
    destruct (Req_EM_T x0 (x - t_off o)) as [->|Hn]; [left; reflexivity|right; intros E; inversion E; contradiction]. }
  destruct D as [D|D].
  - rewrite tanhEval_hit by (try exact D; lra). split; [exact H|]. split; [repeat split|]. apply H; exact D.
  - rewrite (N D). split; [|split; [repeat split|reflexivity]].
    intros x' Hx'. cbn in Hx'. inversion Hx' as [E]. cbn [tput t_cell fst snd].
    assert (x' = x) by lra. subst x'. reflexivity.
Qed.
Lemma tanh_interior tol x0 y0 x1 y1 h x :
  let o := tanhNew tol x0 y0 x1 y1 in
  List.Forall (tInterior o) h -> tInterior o x -> snd (tanhGet (tRun h o) x) = snd (tanhGet o x).
Proof.
  cbn zeta. set (o := tanhNew tol x0 y0 x1 y1).
  assert (G : forall h o', tOk o' -> tSame o o' -> List.Forall (tInterior o) h -> tInterior o x ->
             snd (tanhGet (tRun h o') x) = tanhVal o x).
  { intros h'; induction h' as [|a h0 IH]; intros o' H HS F I; cbn [tRun].
    - unfold tSame in HS; destruct HS as (A & B & C & D & E).
      assert (I' : tInterior o' x).
      + unfold tInterior in *. rewrite <- A, <- B. exact I.
      + transitivity (tanhVal o' x); [exact (proj2 (proj2 (tanh_step o' x H I')))|]. unfold tanhVal. rewrite A, B, C, D, E. reflexivity.
    - inversion F; subst. unfold tSame in HS; destruct HS as (A & B & C & D & E).
      destruct (tanh_step o' a H) as (K1 & (A' & B' & C' & D' & E') & _).
      { unfold tInterior in *. rewrite <- A, <- B. assumption. }
      apply IH; auto. repeat split; congruence. }
  intros F I. rewrite G; auto; [|intros ? ?; discriminate|repeat split].
  symmetry. apply (G nil); auto; [intros ? ?; discriminate|repeat split].
Qed.
