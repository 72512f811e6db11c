(** Property theorems C01 - C10, C49: mathematical function objects.
    Vocabulary: [FunModel] (objects), [FunSpec] ([den]: textbook meaning, [regular], [answer], [runq]). *)
From Coq Require Import Reals List Lra.
From Verif Require Import FunModel FunSpec FunProofs FunProofs2 FunProofs3.
Import ListNotations.
Open Scope R_scope.

(** ** C01 *)
(** After any history of queries, on any object whose clamps were built on not yet queried functions,
    every query answers as if no query had been made; *)
Theorem C01_history_independence : forall e s (h : list (query * R)) q x,
  reachU e s -> answer q e (runq h e s) x = answer q e s x.
Proof. exact hist_full. Qed.
Print Assumptions C01_history_independence.

(** the answer only depends on the expression and the x-offset, not on how the object was produced; *)
Theorem C01_same_expression_same_answer : forall e s1 s2 q x,
  reachU e s1 -> reachU e s2 -> offset e s1 = offset e s2 -> answer q e s1 x = answer q e s2 x.
Proof. exact two_full. Qed.
Print Assumptions C01_same_expression_same_answer.

(** and it is the textbook value of the expression (asinh excluded: see C04). *)
Theorem C01_textbook_value : forall e s h x,
  reachU e s -> noAsinh e -> answer QY e (runq h e s) x = den e (x - offset e s).
Proof. exact textbook. Qed.
Print Assumptions C01_textbook_value.

(** For every history whatsoever, values are right if no clamp is applied directly to a clamp. *)
Theorem C01_textbook_value_any_history : forall e s h x,
  reach e s -> noClampClamp e -> noAsinh e -> answer QY e (runq h e s) x = den e (x - offset e s).
Proof. exact textbook_reach. Qed.
Print Assumptions C01_textbook_value_any_history.

(** The unrestricted statement is false: x queried at 5, then clamped after 3, then clamped before 0,
    answers 5 at 5, while the same expression built on a fresh x answers 3. *)
Theorem C94_history_independence_refuted : exists e s1 s2 x,
  reach e s1 /\ reach e s2 /\ offset e s1 = offset e s2 /\ answer QY e s1 x <> answer QY e s2 x.
Proof.
  exists badExpr, badState, goodState, 5. split; [exact bad_reach|].
  split; [repeat constructor|]. split; [reflexivity|]. rewrite bad_answer, good_answer. lra.
Qed.
Print Assumptions C94_history_independence_refuted.

Definition ex_expr : expr := Bin BMul (Un USin (Bin BMul (Cst 2) Var)) (Clamp After 1 (Un UPos Var)).
Definition ex_obj : state ex_expr :=
  setOff 3 _ (newBin BMul _ _ (newUn USin _ (newBin BMul _ _ (newCst 2) newVar)) (newClamp After 1 _ (newUn UPos _ newVar))).
Example C01_nonvacuous : reachU ex_expr (fst (get QD _ ex_obj 7)) /\ noAsinh ex_expr /\ noClampClamp ex_expr /\ offset _ ex_obj = 3.
Proof. split; [repeat constructor|]. simpl. intuition discriminate. Qed.

(** ** C02 *)
Theorem C02_derivatives : forall e s x,
  reachU e s -> noAsinh e -> regular e (x - offset e s) ->
  derivable_pt_lim (fun t => answer QY e s t) x (answer QD e s x) /\
  derivable_pt_lim (fun t => answer QD e s t) x (answer QDD e s x).
Proof. exact derivs. Qed.
Print Assumptions C02_derivatives.

(** For asinh itself the reported derivative is the one of the inverse hyperbolic sine, hence not the one of the reported value. *)
Theorem C04_asinh_derivative_partial : forall f s x, reachU f s ->
  answer QD (Un UASinh f) (newUn UASinh f s) x =
    answer QD f (clone f s) x * / sqrt (answer QY f (clone f s) x ^ 2 + 1).
Proof. exact asinh_derivative. Qed.
Print Assumptions C04_asinh_derivative_partial.

Example C02_nonvacuous : regular ex_expr (5 - 3) /\ reachU ex_expr ex_obj /\ noAsinh ex_expr.
Proof.
  split; [|split; [repeat constructor|simpl; intuition discriminate]].
  simpl. repeat split; auto. lra. destruct (Rle_dec 1 (5 - 3)); auto.
Qed.
Example C02_nonvacuous_pow_div_comp :
  regular (Bin BComp (Bin BDiv (Cst 1) Var) (Un (UPow (-3)) (Un UAbs Var))) (-2).
Proof.
  simpl. rewrite Rabs_left by lra. repeat split; auto; try lra.
  unfold c_pow. destruct (Rlt_dec 0 (- -2)); [|lra]. apply Rgt_not_eq. unfold Rpower. apply exp_pos.
Qed.

(** ** C03 *)
Theorem C03_offset_direct : forall a e s q x,
  reachU e s -> offset e s = 0 -> answer q e (setOff a e s) x = answer q e s (x - a).
Proof. exact offset_direct. Qed.
Print Assumptions C03_offset_direct.

(** A copy (and operands are copies) behaves as if the offset had never been set. *)
Theorem C95_copy_forgets_offset_refuted : forall a e s q x,
  reachU e s -> answer q e (clone e (setOff a e s)) x = answer q e (clone e s) x.
Proof. exact offset_copy. Qed.
Print Assumptions C95_copy_forgets_offset_refuted.

Theorem C95_offset_in_expression_refuted : exists e s a x,
  reachU e s /\ offset e s = 0 /\
  answer QY (Un UPos e) (newUn UPos e (setOff a e s)) x <> answer QY e (setOff a e s) x.
Proof.
  exists Var, newVar, 1, 0. split; [constructor|]. split; [reflexivity|].
  assert (A := textbook (Un UPos Var) (newUn UPos Var (setOff 1 Var newVar)) nil 0 ltac:(repeat constructor) ltac:(simpl; split; [discriminate|exact I])).
  cbn [runq] in A. rewrite A.
  assert (B := textbook Var (setOff 1 Var newVar) nil 0 ltac:(repeat constructor) I). cbn [runq] in B. rewrite B.
  unfold offset; simpl. lra.
Qed.
Print Assumptions C95_offset_in_expression_refuted.

(** ** C04 *)
Theorem C04_asinh_refuted : forall f s x, reachU f s -> 1 <= answer QY f (clone f s) x ->
  sinh (answer QY (Un UASinh f) (newUn UASinh f s) x) <> answer QY f (clone f s) x.
Proof. exact asinh_wrong. Qed.
Print Assumptions C04_asinh_refuted.
Example C04_nonvacuous : reachU (Cst 2) (newCst 2) /\ 1 <= answer QY (Cst 2) (clone _ (newCst 2)) 0.
Proof.
  split; [constructor|]. change (1 <= 2). lra.
Qed.

(** ** C05 *)
(** f(x) = sin x, then f += 1: the object answers sin(0 + 1) at 0 instead of sin(0) + 1. *)
Theorem C05_compound_assignment_refuted :
  (exists e' s', compound BAdd sinx (newUn USin Var newVar) (Cst 1) (newCst 1) = Some (existT state e' s') /\
     answer QY e' s' 0 <> den (Bin BAdd sinx (Cst 1)) 0) /\
  (forall g t b, compound b Var newVar g t = None).
Proof.
  split; [|reflexivity].
  assert (A := compound_wrong). unfold compound, sinx in *.
  exists (Un USin (Bin BAdd Var (Cst 1))). eexists. split; [reflexivity|]. rewrite A. simpl. apply sin1.
Qed.
Print Assumptions C05_compound_assignment_refuted.

(** It does agree for objects that merely pass their operand through and have not been queried. *)
Theorem C05_compound_assignment_partial : forall o b f s g t,
  o = UPos \/ o = UWrap -> b <> BComp -> reachU f s -> reachU g t -> noAsinh f -> noAsinh g ->
  exists e' s', compound b (Un o f) (newUn o f s) g t = Some (existT state e' s') /\
    reachU e' s' /\ offset e' s' = 0 /\ forall x, answer QY e' s' x = den (Bin b (Un o f) g) x.
Proof. exact compound_pos. Qed.
Print Assumptions C05_compound_assignment_partial.

(** ** C06 *)
Theorem C06_clamp : forall d b f s x,
  reachU (Clamp d b f) s -> offset _ s = 0 -> noAsinh f ->
  (match d with After => x <= b | Before => b <= x end -> answer QY _ s x = den f x) /\
  (match d with After => b <= x | Before => x <= b end ->
     answer QY _ s x = den f b /\ answer QD _ s x = 0 /\ answer QDD _ s x = 0).
Proof. exact clamp_obj. Qed.
Print Assumptions C06_clamp.
Theorem C96_clamp_refuted : exists f b (s : state (Clamp After b f)) x,
  reach (Clamp After b f) s /\ offset (Clamp After b f) s = 0 /\ b < x /\ answer QD (Clamp After b f) s x <> 0.
Proof.
  exists Var, 3, badD, 4. split; [exact badD_reach|]. split; [reflexivity|]. split; [lra|].
  rewrite badD_answer. lra.
Qed.
Print Assumptions C96_clamp_refuted.
Example C06_nonvacuous : reachU (Clamp After 2 (Un UCos Var)) (newClamp After 2 _ (newUn UCos _ newVar)).
Proof. repeat constructor. Qed.

(** ** C07 *)
Theorem C07_saturate_both : forall f s ymin ymax x, reachU f s -> ymin <= ymax ->
  let y := answer QY f (clone f s) x in
  let r := satAns (saturate_both f s ymin ymax) x in
  fst (fst r) = Fin (Rmax ymin (Rmin ymax y)) /\
  (ymin < y < ymax -> snd (fst r) = answer QD f (clone f s) x /\ snd r = answer QDD f (clone f s) x) /\
  (y < ymin \/ ymax < y -> snd (fst r) = 0 /\ snd r = 0).
Proof. exact sat_both. Qed.
Print Assumptions C07_saturate_both.
(** One-sided saturations are constant: ymax for saturate_high, minus infinity for saturate_low. *)
Theorem C97_one_sided_refuted : forall f s b x,
  fst (fst (satAns (saturate_high f s b) x)) = Fin b /\ fst (fst (satAns (saturate_low f s b) x)) = MInf.
Proof. intros; split; [apply sat_high_const|apply sat_low_const]. Qed.
Print Assumptions C97_one_sided_refuted.

(** ** C08 *)
Theorem C08_linear_ramp : forall x0 y0 x1 y1 s, x0 < x1 -> reachU (linRamp x0 y0 x1 y1) s -> offset _ s = 0 ->
  isRamp x0 y0 x1 y1 (answer QY _ s) /\
  forall x, x0 <= x <= x1 -> answer QY _ s x = y0 + (y1 - y0) / (x1 - x0) * (x - x0).
Proof. exact linRamp_obj. Qed.
Print Assumptions C08_linear_ramp.
Theorem C08_cosine_ramp : forall x0 y0 x1 y1 s, x0 < x1 -> reachU (cosRamp x0 y0 x1 y1) s -> offset _ s = 0 ->
  isRamp x0 y0 x1 y1 (answer QY _ s) /\
  (forall x, x0 <= x <= x1 -> answer QY _ s x = y0 + (y1 - y0) * (1 - cos (PI * (x - x0) / (x1 - x0))) / 2) /\
  (forall x, derivable_pt_lim (answer QY _ s) x (answer QD _ s x)) /\
  (forall x, continuity_pt (answer QD _ s) x).
Proof. exact cosRamp_obj. Qed.
Print Assumptions C08_cosine_ramp.
Example C08_nonvacuous : reachU _ (newLinRamp 0 1 2 3) /\ reachU _ (newCosRamp 0 1 2 3) /\
  offset _ (newLinRamp 0 1 2 3) = 0 /\ offset _ (newCosRamp 0 1 2 3) = 0.
Proof. split; [apply newLinRamp_reach|]. split; [apply newCosRamp_reach|]. split; reflexivity. Qed.

(** ** C09 *)
Theorem C09_linear_setters_refuted : forall i k i' k' x, snd (linGet QY (linSet i' k' (linNew i k)) x) = k * x + i.
Proof. exact lin_setters_ignored. Qed.
Print Assumptions C09_linear_setters_refuted.
(** Only the coefficient getters follow the setters: the reported line passes through the two points. *)
Theorem C09_reported_coefficients_partial : forall o x0 y0 x1 y1 k i, x0 <> x1 ->
  (let o' := linSetByTwoPoints x0 y0 x1 y1 o in
   linGetSlope o' * x0 + linGetIntercept o' = y0 /\ linGetSlope o' * x1 + linGetIntercept o' = y1) /\
  linGetSlope (linSetSlope k o) = k /\ linGetIntercept (linSetSlope k o) = linGetIntercept o /\
  linGetIntercept (linSetIntercept i o) = i /\ linGetSlope (linSetIntercept i o) = linGetSlope o /\
  linGetSlope (linSet i k o) = k /\ linGetIntercept (linSet i k o) = i.
Proof. exact lin_coefficients. Qed.
Print Assumptions C09_reported_coefficients_partial.

(** ** C10 *)
Theorem C10_tanh_ramp_refuted : forall tol h w, 0 < w ->
  let o := tanhNew tol 0 0 w h in
  let x := w / 2 in
  let o1 := fst (tanhGet o x) in
  let o2 := fst (tanhGet o1 (-1)) in
  snd (tanhGet o x) = h / 2 /\ snd (tanhGet o2 x) = 0.
Proof. exact tanh_history. Qed.
Print Assumptions C10_tanh_ramp_refuted.
Theorem C10_tanh_ramp_partial : forall tol x0 y0 x1 y1 h x,
  let o := tanhNew tol x0 y0 x1 y1 in
  Forall (tInterior o) h -> tInterior o x -> snd (tanhGet (tRun h o) x) = snd (tanhGet o x).
Proof. exact tanh_interior. Qed.
Print Assumptions C10_tanh_ramp_partial.
(** The plateaus have the prescribed values whatever was asked before, but the ramp is shifted by x0:
    it goes from 2 x0 to x0 + x1 instead of x0 to x1. *)
Theorem C10_plateaus_partial : forall tol x0 y0 x1 y1 h x, x0 <= x1 ->
  let o := tRun h (tanhNew tol x0 y0 x1 y1) in
  (x <= 2 * x0 -> snd (tanhGet o x) = y0) /\ (x0 < x1 -> x0 + x1 <= x -> snd (tanhGet o x) = y1).
Proof. exact tanh_plateaus. Qed.
Print Assumptions C10_plateaus_partial.
Theorem C10_end_point_refuted : forall tol x0 y0 x1 y1, 0 < x0 -> x0 < x1 <= 2 * x0 -> y0 <> y1 ->
  snd (tanhGet (tanhNew tol x0 y0 x1 y1) x1) <> y1.
Proof. exact tanh_end. Qed.
Print Assumptions C10_end_point_refuted.
Example C10_nonvacuous : Forall (tInterior (tanhNew (1/10) 0 0 1 1)) [1/4; 1/2; 3/4].
Proof. repeat constructor; unfold tInterior, tanhNew; simpl; lra. Qed.

(** ** C49 *)
Theorem C145_reconfiguration_refuted :
  (answer QY (Un (UPow 3) Var) (setPow 2 3 Var (fst (get QY (Un (UPow 2) Var) (newUn _ _ newVar) 2))) 2 = 4) /\
  (let s := fst (get QY _ (newLinRamp 0 0 1 1) 2) in
   answer QY (linRamp 0 0 1 5)
     (setInner UWrap (linRampInner 0 0 1 1) (linRampInner 0 0 1 5) s (snd (newLinRamp 0 0 1 5))) 2 = 1).
Proof. split; [exact pow_stale|exact ramp_stale]. Qed.
Print Assumptions C145_reconfiguration_refuted.
(** It takes effect at every abscissa but the one of the last query. *)
Theorem C49_reconfiguration :
  (forall p p' f s x, reachU (Un (UPow p) f) s -> noAsinh f -> cx (fst s) <> Some (x - offset _ s) ->
     answer QY (Un (UPow p') f) (setPow p p' f s) x = c_pow (den f (x - offset _ s)) p') /\
  (forall f f' s t x, reachU (Un UWrap f) s -> reachU f' t -> noAsinh f' -> cx (fst s) <> Some (x - offset _ s) ->
     answer QY (Un UWrap f') (setInner UWrap f f' s t) x = den f' (x - offset _ s)).
Proof. exact (conj setPow_miss setInner_miss). Qed.
Print Assumptions C49_reconfiguration.
Example C49_nonvacuous : reachU _ (fst (get QY (Un (UPow 2) Var) (newUn _ _ newVar) 2)) /\
  cx (fst (fst (get QY (Un (UPow 2) Var) (newUn _ _ newVar) 2))) <> Some (3 - 0).
Proof.
  split; [repeat constructor|]. change (Some (2 - 0) <> Some (3 - 0)). intros E; inversion E; lra.
Qed.
