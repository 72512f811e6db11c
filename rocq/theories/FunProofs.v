(** Proofs about the function objects. *)
From Coq Require Import Reals List Lra Lia.
From Coquelicot Require Import Coquelicot.
From Verif Require Import FunModel FunSpec.
Open Scope R_scope.

(** ** Cache-free meaning of the three answers *)
Fixpoint val3 (e : expr) (x : R) : R * R * R :=
  match e with
  | Var => (x, 1, 0)
  | Cst c => (c, 0, 0)
  | Un o f => unF o (val3 f x)
  | Bin BComp f g =>
      let vg := val3 g x in
      let vf := val3 f (fst (fst vg)) in
      (fst (fst vf), snd (fst vg) * snd (fst vf),
       snd vg * snd (fst vf) + snd (fst vg) * snd (fst vg) * snd vf)
  | Bin o f g => binF o (val3 f x) (val3 g x)
  | Clamp d xc f => if inClamp d xc x then (fst (fst (val3 f xc)), 0, 0) else val3 f x
  end.
Definition vy e x := fst (fst (val3 e x)).
Definition vd e x := snd (fst (val3 e x)).
Definition vdd e x := snd (val3 e x).

(** matching of a triple against a reference; [b] says whether derivatives are included *)
Definition mat (b : bool) (v w : R * R * R) : Prop :=
  fst (fst v) = fst (fst w) /\ (b = true -> v = w).
Definition cv (c : cell) : R * R * R := (cy c, cd c, cdd c).

Definition cellOk (b : bool) (e : expr) (c : cell) : Prop :=
  match e with
  | Cst k => cv c = (k, 0, 0)
  | Clamp d xc _ => forall x0, cx c = Some x0 ->
       (x0 = xc \/ inClamp d xc x0 = false \/ b = true) -> mat b (cv c) (val3 e x0)
  | _ => forall x0, cx c = Some x0 -> mat b (cv c) (val3 e x0)
  end.
Fixpoint ok (b : bool) (e : expr) : state e -> Prop :=
  match e return state e -> Prop with
  | Var => fun c => cellOk b Var c
  | Cst k => fun c => cellOk b (Cst k) c
  | Un o f => fun s => cellOk b (Un o f) (fst s) /\ ok b f (snd s) /\ off (top f (snd s)) = 0
  | Clamp d xc f => fun s => cellOk b (Clamp d xc f) (fst s) /\ ok b f (snd s) /\ off (top f (snd s)) = 0
  | Bin o f g => fun s => cellOk b (Bin o f g) (fst s) /\
       (ok b f (fst (snd s)) /\ off (top f (fst (snd s))) = 0) /\
       (ok b g (snd (snd s)) /\ off (top g (snd (snd s))) = 0)
  end.

Lemma isEval_true c x : isEval c x = true -> cx c = Some x.
Proof.
  unfold isEval. destruct (cx c) as [x0|]; [|discriminate].
  destruct (Req_EM_T x0 x) as [->|]; [reflexivity|discriminate].
Qed.
Lemma isEval_self c x v : isEval (store c x v) x = true.
Proof. unfold isEval, store; simpl. destruct (Req_EM_T x x); congruence. Qed.

Lemma mat_refl b v : mat b v v. Proof. split; reflexivity. Qed.
Lemma mat_weak v w : mat true v w -> forall b, mat b v w.
Proof. intros [_ H] b. rewrite H by reflexivity. apply mat_refl. Qed.
Lemma mat_get b v y : mat b v y -> fst (fst v) = fst (fst y). Proof. intros [H _]; exact H. Qed.

Lemma unF_mat b o v w : mat b v w -> mat b (unF o v) (unF o w).
Proof.
  intros [H1 H2]; split; [|intros Hb; rewrite (H2 Hb); reflexivity].
  destruct v as [[u u'] u''], w as [[v v'] v'']; simpl in *; subst v. destruct o; reflexivity.
Qed.
Lemma binF_mat b o v w v' w' : mat b v w -> mat b v' w' -> mat b (binF o v v') (binF o w w').
Proof.
  intros [H1 H2] [H1' H2']; split; [|intros Hb; rewrite (H2 Hb), (H2' Hb); reflexivity].
  destruct v as [[u u'] u''], w as [[x x'] x''], v' as [[y y'] y''], w' as [[z z'] z''].
  simpl in *; subst. destruct o; reflexivity.
Qed.

Lemma inClamp_self d xc : inClamp d xc xc = true.
Proof. destruct d; simpl; destruct (Rle_dec xc xc) as [|n]; auto; exfalso; apply n; apply Rle_refl. Qed.

(** The evaluation of one node brings its cell to the right values. *)
Definition evOk (b : bool) (e : expr) (s : state e) (x : R) : Prop :=
  let s' := eval e s x in
  ok b e s' /\ off (top e s') = off (top e s) /\ mat b (cv (top e s')) (val3 e x).

Lemma ask_ok b e (IH : forall s x, ok b e s -> evOk b e s x) q s x :
  ok b e s -> off (top e s) = 0 ->
  let r := ask (eval e) (top e) q s x in
  ok b e (fst r) /\ off (top e (fst r)) = 0 /\
  (q = QY \/ b = true -> snd r = match q with QY => vy e x | QD => vd e x | QDD => vdd e x end).
Proof.
  intros H Ho; unfold ask; simpl. rewrite Ho, Rminus_0_r.
  destruct (IH s x H) as (A & B & C & D). repeat split; [exact A|rewrite B; exact Ho|].
  intros Hq. unfold vy, vd, vdd. destruct q; simpl.
  - exact C.
  - destruct Hq as [Hq|Hq]; [discriminate|]. rewrite <- (D Hq); reflexivity.
  - destruct Hq as [Hq|Hq]; [discriminate|]. rewrite <- (D Hq); reflexivity.
Qed.
Lemma ask3_ok b e (IH : forall s x, ok b e s -> evOk b e s x) s x :
  ok b e s -> off (top e s) = 0 ->
  let r := ask3 (eval e) (top e) s x in
  ok b e (fst r) /\ off (top e (fst r)) = 0 /\ mat b (snd r) (val3 e x).
Proof.
  intros H Ho. unfold ask3.
  destruct (ask_ok b e IH QY s x H Ho) as (A1 & B1 & C1).
  set (r1 := ask (eval e) (top e) QY s x) in *. clearbody r1.
  destruct (ask_ok b e IH QD (fst r1) x A1 B1) as (A2 & B2 & C2).
  set (r2 := ask (eval e) (top e) QD (fst r1) x) in *. clearbody r2.
  destruct (ask_ok b e IH QDD (fst r2) x A2 B2) as (A3 & B3 & C3).
  set (r3 := ask (eval e) (top e) QDD (fst r2) x) in *. clearbody r3.
  simpl. repeat split; [exact A3|exact B3| |].
  - simpl. apply C1; left; reflexivity.
  - intros Hb. rewrite C1, C2, C3 by (right; exact Hb). unfold vy, vd, vdd.
    destruct (val3 e x) as [[a c] d]; reflexivity.
Qed.

Lemma cv_store c x v : cv (store c x v) = v.
Proof. destruct v as [[a d] dd]; reflexivity. Qed.

Lemma eval_ok b e : forall s x, ok b e s -> evOk b e s x.
Proof.
  induction e as [|k|o f IHf|o f IHf g IHg|d xc f IHf]; intros s x H; unfold evOk.
  - simpl in *. repeat split.
    + simpl. inversion H0; subst; reflexivity.
    + intros _. simpl in H0. inversion H0; subst; reflexivity.
  - simpl in *. unfold cellOk in H. split; [exact H|split; [reflexivity|rewrite H; apply mat_refl]].
  - destruct s as [c sf]. destruct H as (Hc & Hf & Ho). simpl in Hc, Hf, Ho.
    cbn [eval fst snd]. destruct (isEval c x) eqn:E.
    + apply isEval_true in E.
      split; [split; [exact Hc|split; assumption]|split; [reflexivity|apply (Hc x E)]].
    + destruct (ask3_ok b f IHf sf x Hf Ho) as (A & B & C).
      set (r := ask3 (eval f) (top f) sf x) in *. clearbody r.
      cbn [top fst snd ok]. rewrite cv_store.
      assert (M : mat b (unF o (snd r)) (val3 (Un o f) x)) by (apply unF_mat; exact C).
      split; [|split; [reflexivity|exact M]].
      split; [|split; assumption]. intros x0 Hx0. simpl in Hx0. inversion Hx0; subst x0.
      rewrite cv_store. exact M.
  - destruct s as [c [sf sg]]. destruct H as (Hc & (Hf & Hof) & (Hg & Hog)). simpl in Hc, Hf, Hof, Hg, Hog.
    assert (Hev : isEval c x = true -> mat b (cv c) (val3 (Bin o f g) x)).
    { intros E. apply isEval_true in E. apply (Hc x E). }
    assert (HO : forall vf vg rf rg, ok b f rf -> off (top f rf) = 0 -> ok b g rg -> off (top g rg) = 0 ->
              mat b vf (val3 f x) -> mat b vg (val3 g x) -> o <> BComp ->
              let s' := (store c x (binF o vf vg), (rf, rg)) in
              ok b (Bin o f g) s' /\ off (top (Bin o f g) s') = off c /\ mat b (cv (top (Bin o f g) s')) (val3 (Bin o f g) x)).
    { intros vf vg rf rg K1 K2 K3 K4 K5 K6 Hno. cbn [top fst snd ok]. rewrite cv_store.
      assert (M : mat b (binF o vf vg) (val3 (Bin o f g) x)).
      { destruct o; try congruence; apply binF_mat; assumption. }
      split; [|split; [reflexivity|exact M]].
      split; [|split; split; assumption]. intros x0 Hx0. simpl in Hx0. inversion Hx0; subst x0.
      rewrite cv_store. exact M. }
    destruct (ask3_ok b g IHg sg x Hg Hog) as (Ag & Bg & Cg).
    destruct (ask3_ok b f IHf sf x Hf Hof) as (Af & Bf & Cf).
    destruct o; cbn [eval fst snd]; destruct (isEval c x) eqn:E;
      try (specialize (Hev eq_refl);
           split; [split; [exact Hc|split; split; assumption]|split; [reflexivity|exact Hev]]);
      try (apply HO; auto; discriminate).
    clear HO Hev.
    set (rg := ask3 (eval g) (top g) sg x) in *. clearbody rg.
    destruct rg as [sg' [[v v'] v'']]. cbn [fst snd] in *.
    assert (Hv : v = vy g x) by (apply Cg). subst v.
    destruct (ask_ok b f IHf QY sf (vy g x) Hf Hof) as (A1 & B1 & C1).
    set (r1 := ask (eval f) (top f) QY sf (vy g x)) in *. clearbody r1.
    destruct (ask_ok b f IHf QD (fst r1) (vy g x) A1 B1) as (A2 & B2 & C2).
    set (r2 := ask (eval f) (top f) QD (fst r1) (vy g x)) in *. clearbody r2.
    destruct (ask_ok b f IHf QD (fst r2) (vy g x) A2 B2) as (A3 & B3 & C3).
    set (r3 := ask (eval f) (top f) QD (fst r2) (vy g x)) in *. clearbody r3.
    destruct (ask_ok b f IHf QDD (fst r3) (vy g x) A3 B3) as (A4 & B4 & C4).
    set (r4 := ask (eval f) (top f) QDD (fst r3) (vy g x)) in *. clearbody r4.
    cbn [top fst snd ok]. rewrite cv_store.
    assert (M : mat b (snd r1, v' * snd r2, v'' * snd r3 + v' * v' * snd r4) (val3 (Bin BComp f g) x)).
    { split.
      - cbn [fst]. rewrite C1 by (left; reflexivity). reflexivity.
      - intros Hb. rewrite C1, C2, C3, C4 by (right; exact Hb).
        destruct Cg as [_ Cg]. specialize (Cg Hb). unfold vy in Cg. simpl.
        unfold vy, vd, vdd. destruct (val3 g x) as [[a a'] a'']. simpl in *. inversion Cg; subst. reflexivity. }
    split; [|split; [reflexivity|exact M]].
    split; [|split; split; assumption]. intros x0 Hx0. simpl in Hx0. inversion Hx0; subst x0.
    rewrite cv_store. exact M.
  - destruct s as [c sf]. destruct H as (Hc & Hf & Ho). simpl in Hc, Hf, Ho.
    cbn [eval fst snd]. destruct (inClamp d xc x) eqn:Z.
    + assert (EV : val3 (Clamp d xc f) x = (vy f xc, 0, 0)) by (simpl; rewrite Z; reflexivity).
      assert (EVc : val3 (Clamp d xc f) xc = (vy f xc, 0, 0)) by (simpl; rewrite inClamp_self; reflexivity).
      destruct (isEval c xc) eqn:E.
      * apply isEval_true in E. specialize (Hc xc E (or_introl eq_refl)).
        rewrite inClamp_self in Hc.
        split; [|split; [reflexivity|]].
        -- split; [|split; assumption]. simpl. intros x0 Hx0 _. rewrite E in Hx0; inversion Hx0; subst x0.
           rewrite inClamp_self. exact Hc.
        -- rewrite EV. exact Hc.
      * destruct (ask_ok b f IHf QY sf xc Hf Ho) as (A & B & C).
        set (r := ask (eval f) (top f) QY sf xc) in *. clearbody r.
        specialize (C (or_introl eq_refl)).
        cbn [top fst snd ok]. rewrite cv_store, EV, C.
        split; [|split; [reflexivity|apply mat_refl]].
        split; [|split; assumption]. intros x0 Hx0 _. simpl in Hx0. inversion Hx0; subst x0.
        rewrite cv_store, EVc. apply mat_refl.
    + assert (EV : val3 (Clamp d xc f) x = val3 f x) by (simpl; rewrite Z; reflexivity).
      destruct (isEval c x) eqn:E.
      * apply isEval_true in E. assert (Hc' := Hc x E (or_intror (or_introl Z))).
        rewrite Z in Hc'. split; [|split; [reflexivity|]].
        -- split; [exact Hc|split; assumption].
        -- rewrite EV. exact Hc'.
      * destruct (ask3_ok b f IHf sf x Hf Ho) as (A & B & C).
        set (r := ask3 (eval f) (top f) sf x) in *. clearbody r.
        cbn [top fst snd ok]. rewrite cv_store, EV.
        split; [|split; [reflexivity|exact C]].
        split; [|split; assumption]. intros x0 Hx0 _. simpl in Hx0. inversion Hx0; subst x0.
        rewrite cv_store, EV. exact C.
Qed.

Lemma cellOk_clone b e c : cellOk b e c -> cellOk b e (cloneCell c).
Proof. destruct e; exact (fun H => H). Qed.
Lemma off_clone e s : off (top e (clone e s)) = 0.
Proof. destruct e; reflexivity. Qed.
Lemma top_clone e s : top e (clone e s) = cloneCell (top e s).
Proof. destruct e; reflexivity. Qed.
Lemma ok_clone b e s : ok b e s -> ok b e (clone e s).
Proof.
  induction e as [|k|o f IHf|o f IHf g IHg|d xc f IHf]; simpl.
  - exact (fun H => H).
  - exact (fun H => H).
  - intros (A & B & C); split; [exact A|split; [apply IHf; exact B|apply off_clone]].
  - intros (A & (B & C) & (D & E)); split; [exact A|split; split;
      [apply IHf; exact B|apply off_clone|apply IHg; exact D|apply off_clone]].
  - intros (A & B & C); split; [exact A|split; [apply IHf; exact B|apply off_clone]].
Qed.
Lemma ok_setOff b a e s : ok b e s -> ok b e (setOff a e s).
Proof. destruct e; exact (fun H => H). Qed.
Lemma ok_cell b e s : ok b e s -> cellOk b e (top e s).
Proof. destruct e; simpl; intuition. Qed.
Lemma ok_get b q e s x : ok b e s -> ok b e (fst (get q e s x)).
Proof. intros H. apply (eval_ok b e s (x - off (top e s)) H). Qed.

Lemma ok_newUn b o f s : ok b f s -> ok b (Un o f) (newUn o f s).
Proof. intros H; split; [intros ? ?; discriminate|split; [apply ok_clone; exact H | apply off_clone]]. Qed.
Lemma ok_newBin b o f g s t : ok b f s -> ok b g t -> ok b (Bin o f g) (newBin o f g s t).
Proof.
  intros H K; split; [intros ? ?; discriminate|split; split;
    [apply ok_clone; exact H | apply off_clone | apply ok_clone; exact K | apply off_clone]].
Qed.

Lemma reachU_ok e s : reachU e s -> ok true e s.
Proof.
  induction 1.
  - intros x0 Hx; discriminate.
  - reflexivity.
  - apply ok_newUn; assumption.
  - apply ok_newBin; assumption.
  - split; [|split; [apply ok_clone; assumption|apply off_clone]].
    intros x0 Hx0. simpl in Hx0. rewrite H0 in Hx0. discriminate.
  - apply ok_clone; assumption.
  - apply ok_get; assumption.
  - apply ok_setOff; assumption.
Qed.

Lemma reach_ok e s : reach e s -> noClampClamp e -> ok false e s.
Proof.
  induction 1; intros N.
  - intros x0 Hx; discriminate.
  - reflexivity.
  - apply ok_newUn; auto.
  - destruct N. apply ok_newBin; auto.
  - destruct N as [N1 N2].
    split; [|split; [apply ok_clone; auto|apply off_clone]].
    assert (K := ok_cell _ _ _ (IHreach N1)).
    intros x0 Hx0 Hz. simpl in Hx0. change (cv (fst (newClamp d xc f s))) with (cv (top f s)).
    assert (M : mat false (cv (top f s)) (val3 f x0)).
    { destruct f; try (apply K; exact Hx0); [|destruct N2].
      simpl in K |- *. unfold cellOk in K. rewrite K. apply mat_refl. }
    destruct Hz as [->|[Hz|Hz]]; [| |discriminate].
    + split; [|discriminate]. simpl. rewrite inClamp_self. apply M.
    + simpl. rewrite Hz. exact M.
  - apply ok_clone; auto.
  - apply ok_get; auto.
  - apply ok_setOff; auto.
Qed.

Lemma get_val b q e s x : ok b e s -> q = QY \/ b = true ->
  snd (get q e s x) = match q with QY => vy e (x - off (top e s)) | QD => vd e (x - off (top e s))
                      | QDD => vdd e (x - off (top e s)) end.
Proof.
  intros H Hq. destruct (eval_ok b e s (x - off (top e s)) H) as (_ & _ & C & D).
  unfold get, ask, vy, vd, vdd; cbn [snd]. destruct q; simpl readq.
  - exact C.
  - destruct Hq as [Hq|Hq]; [discriminate|]. rewrite <- (D Hq); reflexivity.
  - destruct Hq as [Hq|Hq]; [discriminate|]. rewrite <- (D Hq); reflexivity.
Qed.

Lemma vy_den e x : noAsinh e -> vy e x = den e x.
Proof.
  revert x; induction e as [|k|o f IHf|o f IHf g IHg|d xc f IHf]; intros x N; unfold vy in *.
  - reflexivity.
  - reflexivity.
  - destruct N as [N1 N2]. cbn [val3 den]. rewrite <- (IHf x N2).
    destruct (val3 f x) as [[u u'] u'']; destruct o; try reflexivity. congruence.
  - destruct N as [N1 N2].
    destruct o; cbn [val3 den];
      try (rewrite <- (IHf x N1), <- (IHg x N2);
           destruct (val3 f x) as [[u u'] u''], (val3 g x) as [[v v'] v'']; reflexivity).
    rewrite <- (IHg x N2), <- (IHf _ N1). reflexivity.
  - cbn [val3 den]. simpl in N. destruct d; simpl inClamp.
    + destruct (Rle_dec xc x); simpl; auto.
    + destruct (Rle_dec x xc); simpl; auto.
Qed.

(** ** Derivatives *)
Lemma D_ext_loc (f g : R -> R) (x l : R) : locally x (fun t => f t = g t) -> is_derive f x l -> is_derive g x l.
Proof. apply is_derive_ext_loc. Qed.
Lemma D_eq (f : R -> R) (x l l' : R) : l = l' -> is_derive f x l -> is_derive f x l'.
Proof. intros ->; auto. Qed.
Lemma D_plus (f g : R -> R) (x a b l : R) : is_derive f x a -> is_derive g x b -> l = a + b -> is_derive (fun t => f t + g t) x l.
Proof. intros H K ->. apply (is_derive_plus f g x a b H K). Qed.
Lemma D_minus (f g : R -> R) (x a b l : R) : is_derive f x a -> is_derive g x b -> l = a - b -> is_derive (fun t => f t - g t) x l.
Proof. intros H K ->. apply (is_derive_minus f g x a b H K). Qed.
Lemma D_mult (f g : R -> R) (x a b l : R) : is_derive f x a -> is_derive g x b -> l = a * g x + f x * b -> is_derive (fun t => f t * g t) x l.
Proof.
  intros H K ->. apply is_derive_Reals. apply is_derive_Reals in H. apply is_derive_Reals in K.
  apply (derivable_pt_lim_mult f g x a b H K).
Qed.
Lemma D_div (f g : R -> R) (x a b l : R) : is_derive f x a -> is_derive g x b -> g x <> 0 ->
  l = (a * g x - b * f x) / (g x * g x) -> is_derive (fun t => f t / g t) x l.
Proof.
  intros H K N ->. apply is_derive_Reals. apply is_derive_Reals in H. apply is_derive_Reals in K.
  apply (derivable_pt_lim_div f g x a b H K N).
Qed.
Lemma D_comp (f g : R -> R) (x a b l : R) : is_derive f (g x) a -> is_derive g x b -> l = b * a -> is_derive (fun t => f (g t)) x l.
Proof.
  intros H K ->. apply is_derive_Reals. apply is_derive_Reals in H. apply is_derive_Reals in K.
  rewrite Rmult_comm. apply (derivable_pt_lim_comp g f x b a K H).
Qed.
Lemma D_id (x : R) : is_derive (fun t : R => t) x 1.
Proof. apply (is_derive_id x). Qed.
Lemma D_const (c x : R) : is_derive (fun _ : R => c) x 0.
Proof. apply (is_derive_const c x). Qed.

Definition sphi (o : uop) (u : R) : R * R :=
  match o with
  | UNeg => (-1, 0) | UPos => (1, 0) | UWrap => (1, 0)
  | UCos => (- sin u, - cos u) | USin => (cos u, - sin u)
  | UTan => (1 + tan u * tan u, 2 * tan u * (1 + tan u * tan u))
  | UACos => (- / sqrt (1 - u * u), - u / ((1 - u * u) * sqrt (1 - u * u)))
  | UASin => (/ sqrt (1 - u * u), u / ((1 - u * u) * sqrt (1 - u * u)))
  | UATan => (/ (1 + u * u), - 2 * u / ((1 + u * u) * (1 + u * u)))
  | UCosh => (sinh u, cosh u) | USinh => (cosh u, sinh u)
  | UTanh => (1 - tanh u * tanh u, - 2 * tanh u * (1 - tanh u * tanh u))
  | UACosh => (/ sqrt (u * u - 1), - u / ((u * u - 1) * sqrt (u * u - 1)))
  | UASinh => (/ sqrt (u * u + 1), - u / ((u * u + 1) * sqrt (u * u + 1)))
  | UATanh => (/ (1 - u * u), 2 * u / ((1 - u * u) * (1 - u * u)))
  | USqrt => (/ (2 * sqrt u), - / (4 * (u * sqrt u)))
  | UAbs => (c_sign u, 0)
  | UPow p => (p * c_pow u (p - 1), p * (p - 1) * c_pow u (p - 2))
  end.

Lemma c_pow_32 t : 0 < t -> c_pow t (3 / 2) = t * sqrt t.
Proof.
  intros H. unfold c_pow. destruct (Rlt_dec 0 t); [|contradiction].
  replace (3 / 2) with (1 + / 2) by field. rewrite Rpower_plus, Rpower_1, Rpower_sqrt; auto.
Qed.

Lemma unF_phi o u u' u'' : udom o u ->
  snd (fst (unF o (u, u', u''))) = u' * fst (sphi o u) /\
  snd (unF o (u, u', u'')) = u'' * fst (sphi o u) + u' * u' * snd (sphi o u).
Proof.
  intros D. destruct o; simpl in *; try (split; ring); try (split; [ring|lra]).
  - (* acos *) assert (0 < 1 - u * u) by nra. assert (0 < sqrt (1 - u * u)) by (apply sqrt_lt_R0; auto).
    rewrite c_pow_32 by auto. split; field; repeat split; lra.
  - assert (0 < 1 - u * u) by nra. assert (0 < sqrt (1 - u * u)) by (apply sqrt_lt_R0; auto).
    rewrite c_pow_32 by auto. split; field; repeat split; lra.
  - assert (0 < 1 + u * u) by nra. split; field; lra.
  - assert (0 < u * u - 1) by nra. assert (0 < sqrt (u * u - 1)) by (apply sqrt_lt_R0; auto).
    rewrite c_pow_32 by auto. split; field; repeat split; lra.
  - assert (0 < u * u + 1) by nra. assert (0 < sqrt (u * u + 1)) by (apply sqrt_lt_R0; auto).
    rewrite c_pow_32 by auto. split; field; repeat split; lra.
  - assert (0 < 1 - u * u) by nra. split; field; lra.
  - assert (0 < sqrt u) by (apply sqrt_lt_R0; auto). rewrite c_pow_32 by auto. split; field; repeat split; lra.
Qed.

Lemma Int_part_IZR n : Int_part (IZR n) = n.
Proof.
  unfold Int_part. rewrite <- (up_tech (IZR n) n); [lia|lra|]. rewrite plus_IZR; lra.
Qed.
Lemma c_pow_Z u n : u <> 0 -> c_pow u (IZR n) = powerRZ u n.
Proof.
  intros H. unfold c_pow. destruct (Rlt_dec 0 u) as [P|P].
  - symmetry; apply powerRZ_Rpower; exact P.
  - rewrite Int_part_IZR. destruct (Req_EM_T (IZR n) (IZR n)); [reflexivity|congruence].
Qed.
Lemma c_pow_N u n : c_pow u (INR n) = u ^ n.
Proof.
  unfold c_pow. destruct (Rlt_dec 0 u) as [P|P].
  - symmetry; rewrite <- Rpower_pow; auto.
  - rewrite INR_IZR_INZ, Int_part_IZR. destruct (Req_EM_T (IZR (Z.of_nat n)) (IZR (Z.of_nat n))); [|congruence].
    symmetry; apply pow_powerRZ.
Qed.

Lemma loc_gt (a x : R) : a < x -> locally x (fun t => a < t).
Proof. intros H. apply (open_gt a). exact H. Qed.
Lemma loc_lt (a x : R) : x < a -> locally x (fun t => t < a).
Proof. intros H. apply (open_lt a). exact H. Qed.
Lemma loc_neq (a x : R) : x <> a -> locally x (fun t => t <> a).
Proof. intros H. apply (open_neq a). exact H. Qed.

Lemma D_powZ n u : u <> 0 -> is_derive (fun t => powerRZ t n) u (IZR n * powerRZ u (n - 1)).
Proof.
  intros H.
  assert (PS : forall k : nat, is_derive (fun t => t ^ k) u (INR k * u ^ pred k)).
  { intros k. apply is_derive_Reals. apply derivable_pt_lim_pow. }
  destruct n as [|p|p].
  - simpl. rewrite Rmult_0_l. apply (D_const 1).
  - simpl powerRZ at 1. eapply D_eq; [|apply PS].
    rewrite INR_IZR_INZ, positive_nat_Z. f_equal.
    destruct (Pos2Nat.is_succ p) as [m Hm]. rewrite Hm; cbn [pred].
    rewrite pow_powerRZ. f_equal. lia.
  - simpl powerRZ at 1.
    apply (D_ext_loc (fun t => 1 / t ^ Pos.to_nat p)).
    { apply filter_forall; intros t; unfold Rdiv; ring. }
    eapply D_div; [apply (D_const 1)|apply PS|apply pow_nonzero; exact H|].
    destruct (Pos2Nat.is_succ p) as [m Hm].
    assert (E1 : (Z.neg p - 1 = - Z.of_nat (S (S m)))%Z) by lia.
    assert (E2 : (Z.neg p = - Z.of_nat (S m))%Z) by lia.
    rewrite E1, E2.
    rewrite powerRZ_neg by exact H. rewrite <- pow_powerRZ. rewrite opp_IZR, <- INR_IZR_INZ.
    rewrite Hm. cbn [pred]. rewrite ?pow_inv by exact H.
    simpl (u ^ S m). simpl (u ^ S (S m)). assert (u ^ m <> 0) by (apply pow_nonzero; exact H).
    field; auto.
Qed.

Lemma D_cpow u p :
  (0 < u \/ (exists n : Z, p = IZR n /\ u <> 0) \/ (exists n : nat, p = INR n /\ (1 <= n)%nat)) ->
  is_derive (fun t => c_pow t p) u (p * c_pow u (p - 1)).
Proof.
  intros [H|[(n & -> & H)|(n & -> & H)]].
  - apply (D_ext_loc (fun t => Rpower t p)).
    { generalize (loc_gt 0 u H); apply filter_imp; intros t Ht. unfold c_pow. destruct (Rlt_dec 0 t); tauto. }
    eapply D_eq; [|apply is_derive_Reals, derivable_pt_lim_power; exact H].
    unfold c_pow. destruct (Rlt_dec 0 u); tauto.
  - apply (D_ext_loc (fun t => powerRZ t n)).
    { generalize (loc_neq 0 u H); apply filter_imp; intros t Ht. symmetry; apply c_pow_Z; exact Ht. }
    replace (IZR n - 1) with (IZR (n - 1)) by (rewrite minus_IZR; reflexivity).
    rewrite c_pow_Z by exact H. apply D_powZ; exact H.
  - destruct n as [|n]; [lia|]. replace (INR (S n) - 1) with (INR n) by (rewrite S_INR; ring).
    rewrite c_pow_N.
    apply (D_ext_loc (fun t => t ^ S n)).
    { apply filter_forall; intros t. symmetry; apply c_pow_N. }
    apply is_derive_Reals. apply (derivable_pt_lim_pow u (S n)).
Qed.

Lemma D_cpow2 u p :
  udom (UPow p) u -> is_derive (fun t => c_pow t (p - 1)) u ((p - 1) * c_pow u (p - 2)).
Proof.
  simpl; intros H. replace (p - 2) with (p - 1 - 1) by ring. apply D_cpow.
  destruct H as [H|[(n & -> & H)|(n & -> & H)]]; [left; exact H|right; left|right; right].
  - exists (n - 1)%Z. rewrite minus_IZR; auto.
  - exists (n - 1)%nat. rewrite minus_INR by lia. simpl; split; [reflexivity|lia].
Qed.

Lemma cosh_pos x : 0 < cosh x.
Proof. unfold cosh. generalize (exp_pos x) (exp_pos (- x)); lra. Qed.
Lemma cosh_sq x : cosh x * cosh x = 1 + sinh x * sinh x.
Proof.
  unfold cosh, sinh. rewrite exp_Ropp. generalize (exp_pos x); intros. field. lra.
Qed.
Lemma D_cosh x : is_derive cosh x (sinh x).
Proof. apply is_derive_Reals, derivable_pt_lim_cosh. Qed.
Lemma D_sinh x : is_derive sinh x (cosh x).
Proof. apply is_derive_Reals, derivable_pt_lim_sinh. Qed.
Lemma D_tanh x : is_derive tanh x (1 - tanh x * tanh x).
Proof.
  apply (D_ext_loc (fun t => sinh t / cosh t)); [apply filter_forall; intros t; reflexivity|].
  eapply D_div; [apply D_sinh|apply D_cosh|apply Rgt_not_eq, cosh_pos|].
  unfold tanh. generalize (cosh_pos x); intros. field_simplify; [|lra|lra].
  reflexivity.
Qed.
Lemma D_asin x : -1 < x < 1 -> is_derive asin x (/ sqrt (1 - x * x)).
Proof.
  intros H. apply is_derive_Reals. generalize (derive_pt_asin x H). intros E.
  replace (/ sqrt (1 - x * x)) with (derive_pt asin x (derivable_pt_asin x H)).
  - apply (proj2_sig (derivable_pt_asin x H)).
  - rewrite E. unfold Rsqr, Rdiv. ring.
Qed.
Lemma D_acos x : -1 < x < 1 -> is_derive acos x (- / sqrt (1 - x * x)).
Proof.
  intros H. apply is_derive_Reals. generalize (derive_pt_acos x H). intros E.
  replace (- / sqrt (1 - x * x)) with (derive_pt acos x (derivable_pt_acos x H)).
  - apply (proj2_sig (derivable_pt_acos x H)).
  - rewrite E. unfold Rsqr, Rdiv. ring.
Qed.

Ltac foldm := repeat match goal with |- context [?a + - ?b] => change (a + - b) with (a - b) end.
Ltac toR := match goal with |- ?a = ?b => change (@eq R a b) end.

(** first and second derivative of each one-operand node *)
Lemma sphi_1 o u : udom o u -> o <> UASinh -> is_derive (denU o) u (fst (sphi o u)).
Proof.
  intros D N. destruct o; simpl in *; try congruence; unfold denU.
  - auto_derive; [auto|toR; ring].
  - apply D_id.
  - auto_derive; [auto|toR; ring].
  - auto_derive; [auto|toR; ring].
  - eapply D_eq; [|apply is_derive_tan; exact D]. ring.
  - apply D_acos; exact D.
  - apply D_asin; exact D.
  - eapply D_eq; [|apply is_derive_atan]. reflexivity.
  - apply D_cosh.
  - apply D_sinh.
  - apply D_tanh.
  - assert (0 < u * u - 1) by nra. assert (0 < sqrt (u * u - 1)) by (apply sqrt_lt_R0; auto).
    unfold c_acosh. auto_derive; foldm; [repeat split; lra|].
    field. repeat split; lra.
  - unfold c_atanh. auto_derive.
    + split; [lra|]. split; [|auto]. apply Rdiv_lt_0_compat; lra.
    + field. repeat split; nra.
  - auto_derive; [exact D|]. assert (0 < sqrt u) by (apply sqrt_lt_R0; auto). field. lra.
  - unfold c_sign. destruct (Rle_dec 0 u).
    + apply (D_ext_loc (fun t => t)); [|apply D_id].
      generalize (loc_gt 0 u ltac:(lra)); apply filter_imp; intros t Ht. symmetry; apply Rabs_right; lra.
    + apply (D_ext_loc (fun t => - t)); [|auto_derive; [auto|toR; ring]].
      generalize (loc_lt 0 u ltac:(lra)); apply filter_imp; intros t Ht. symmetry; apply Rabs_left; lra.
  - apply D_cpow. destruct D as [H|[H|(n & -> & H)]]; auto. right; right; exists n; split; [reflexivity|lia].
  - apply D_id.
Qed.
Lemma sphi_2 o u : udom o u -> is_derive (fun t => fst (sphi o t)) u (snd (sphi o u)).
Proof.
  intros D. destruct o; simpl in *.
  - apply (D_const (-1)).
  - apply (D_const 1).
  - auto_derive; [auto|toR; ring].
  - auto_derive; [auto|toR; ring].
  - assert (T := is_derive_tan u D).
    eapply D_plus; [apply D_const|eapply D_mult; [exact T|exact T|reflexivity]|]. ring.
  - assert (0 < 1 - u * u) by nra. assert (0 < sqrt (1 - u * u)) by (apply sqrt_lt_R0; auto).
    auto_derive; foldm; [repeat split; lra|]. field_simplify_eq; [|repeat split; lra].
    replace (sqrt (1 - u * u) ^ 2) with (1 - u * u) by (rewrite <- Rsqr_pow2, Rsqr_sqrt; lra). ring.
  - assert (0 < 1 - u * u) by nra. assert (0 < sqrt (1 - u * u)) by (apply sqrt_lt_R0; auto).
    auto_derive; foldm; [repeat split; lra|]. field_simplify_eq; [|repeat split; lra].
    replace (sqrt (1 - u * u) ^ 2) with (1 - u * u) by (rewrite <- Rsqr_pow2, Rsqr_sqrt; lra). ring.
  - assert (0 < 1 + u * u) by nra. auto_derive; foldm; [lra|]. field. lra.
  - apply D_sinh.
  - apply D_cosh.
  - eapply D_minus; [apply D_const|eapply D_mult; [apply D_tanh|apply D_tanh|reflexivity]|]. ring.
  - assert (0 < u * u - 1) by nra. assert (0 < sqrt (u * u - 1)) by (apply sqrt_lt_R0; auto).
    auto_derive; foldm; [repeat split; lra|]. field_simplify_eq; [|repeat split; lra].
    replace (sqrt (u * u - 1) ^ 2) with (u * u - 1) by (rewrite <- Rsqr_pow2, Rsqr_sqrt; lra). ring.
  - assert (0 < u * u + 1) by nra. assert (0 < sqrt (u * u + 1)) by (apply sqrt_lt_R0; auto).
    auto_derive; foldm; [repeat split; lra|]. field_simplify_eq; [|repeat split; lra].
    replace (sqrt (u * u + 1) ^ 2) with (u * u + 1) by (rewrite <- Rsqr_pow2, Rsqr_sqrt; lra). ring.
  - assert (0 < 1 - u * u) by nra. auto_derive; foldm; [lra|]. field. lra.
  - assert (0 < sqrt u) by (apply sqrt_lt_R0; auto). auto_derive; foldm; [repeat split; lra|].
    field_simplify_eq; [|repeat split; lra].
    replace (sqrt u ^ 2) with u by (rewrite <- Rsqr_pow2, Rsqr_sqrt; lra). ring.
  - unfold c_sign. destruct (Rle_dec 0 u).
    + apply (D_ext_loc (fun t => 1)); [|apply (D_const 1)].
      generalize (loc_gt 0 u ltac:(lra)); apply filter_imp; intros t Ht. destruct (Rle_dec 0 t); lra.
    + apply (D_ext_loc (fun t => -1)); [|apply (D_const (-1))].
      generalize (loc_lt 0 u ltac:(lra)); apply filter_imp; intros t Ht. destruct (Rle_dec 0 t); lra.
  - eapply D_mult; [apply D_const|apply D_cpow2; exact D|]. ring.
  - apply (D_const 1).
Qed.

Lemma D_cont (f : R -> R) x l : is_derive f x l -> continuous f x.
Proof. intros H. apply (ex_derive_continuous f). exists l; exact H. Qed.
Lemma D_loc (f : R -> R) (x l : R) (P : R -> Prop) : is_derive f x l -> locally (f x) P -> locally x (fun t => P (f t)).
Proof. intros H K. apply (D_cont f x l H). exact K. Qed.

(** regularity of the operand of a one-operand node is an open condition *)
Lemma udom_open o u : udom o u -> locally u (fun t => udom o t).
Proof.
  intros D. destruct o; simpl in *; try (apply filter_forall; intros; exact I).
  - assert (C : continuous cos u) by (apply (D_cont cos u (- sin u)); auto_derive; [auto|toR; ring]).
    apply (C (fun t => t <> 0)). apply loc_neq; exact D.
  - apply filter_and; [apply loc_gt|apply loc_lt]; tauto.
  - apply filter_and; [apply loc_gt|apply loc_lt]; tauto.
  - apply loc_gt; exact D.
  - apply filter_and; [apply loc_gt|apply loc_lt]; tauto.
  - apply loc_gt; exact D.
  - apply loc_neq; exact D.
  - destruct D as [H|[(n & -> & H)|(n & -> & H)]].
    + generalize (loc_gt 0 u H); apply filter_imp; intros t Ht; left; exact Ht.
    + generalize (loc_neq 0 u H); apply filter_imp; intros t Ht; right; left; exists n; auto.
    + apply filter_forall; intros t; right; right; exists n; auto.
Qed.

Lemma val_derive e : noAsinh e -> forall x, regular e x ->
  is_derive (vy e) x (vd e x) /\ is_derive (vd e) x (vdd e x).
Proof.
  induction e as [|k|o f IHf|o f IHf g IHg|d xc f IHf]; intros N x Rg.
  - split; [apply D_id|apply (D_const 1)].
  - split; [apply (D_const k)|apply (D_const 0)].
  - destruct N as [N1 N2]. destruct Rg as [R1 R2].
    destruct (IHf N2 x R1) as [A B]. rewrite <- vy_den in R2 by exact N2.
    assert (Ey : forall t, vy (Un o f) t = denU o (vy f t)).
    { intros t. unfold vy; cbn [val3]. destruct (val3 f t) as [[a b] c]. destruct o; try reflexivity; congruence. }
    assert (Ed : forall t, udom o (vy f t) -> vd (Un o f) t = vd f t * fst (sphi o (vy f t)) /\
               vdd (Un o f) t = vdd f t * fst (sphi o (vy f t)) + vd f t * vd f t * snd (sphi o (vy f t))).
    { intros t Ht. unfold vd, vdd, vy in *; cbn [val3]. destruct (val3 f t) as [[a b] c]. apply unF_phi; exact Ht. }
    destruct (Ed x R2) as [Ed1 Ed2].
    split.
    + apply (D_ext_loc (fun t => denU o (vy f t))); [apply filter_forall; intros t; symmetry; apply Ey|].
      rewrite Ed1. apply (D_comp (denU o) (vy f) x _ _ _ (sphi_1 o _ R2 N1) A eq_refl).
    + apply (D_ext_loc (fun t => vd f t * fst (sphi o (vy f t)))).
      { generalize (D_loc _ _ _ _ A (udom_open _ _ R2)); apply filter_imp; intros t Ht. symmetry; apply Ed; exact Ht. }
      rewrite Ed2.
      apply (D_mult (vd f) (fun t => fst (sphi o (vy f t))) x _ _ _ B
               (D_comp (fun u => fst (sphi o u)) (vy f) x _ _ _ (sphi_2 o _ R2) A eq_refl)).
      ring.
  - destruct N as [N1 N2].
    assert (Reg : o <> BComp -> regular f x /\ regular g x).
    { destruct o; simpl in Rg; try tauto; congruence. }
    destruct o; cbn [regular] in Rg.
    + destruct (IHf N1 x (proj1 Rg)) as [A B]. destruct (IHg N2 x (proj2 Rg)) as [C D].
      split; [apply (D_plus (vy f) (vy g) x _ _ _ A C eq_refl)|apply (D_plus (vd f) (vd g) x _ _ _ B D eq_refl)].
    + destruct (IHf N1 x (proj1 Rg)) as [A B]. destruct (IHg N2 x (proj2 Rg)) as [C D].
      split; [apply (D_minus (vy f) (vy g) x _ _ _ A C eq_refl)|apply (D_minus (vd f) (vd g) x _ _ _ B D eq_refl)].
    + destruct (IHf N1 x (proj1 Rg)) as [A B]. destruct (IHg N2 x (proj2 Rg)) as [C D].
      split.
      * apply (D_mult (vy f) (vy g) x _ _ _ A C). unfold vy, vd; simpl. ring.
      * apply (D_plus (fun t => vd f t * vy g t) (fun t => vd g t * vy f t) x
                 (vdd f x * vy g x + vd f x * vd g x) (vdd g x * vy f x + vd g x * vd f x)).
        -- apply (D_mult (vd f) (vy g) x _ _ _ B C). reflexivity.
        -- apply (D_mult (vd g) (vy f) x _ _ _ D A). reflexivity.
        -- unfold vy, vd, vdd; simpl. ring.
    + destruct Rg as (Rf & Rgg & Nz). rewrite <- vy_den in Nz by exact N2.
      destruct (IHf N1 x Rf) as [A B]. destruct (IHg N2 x Rgg) as [C D].
      split.
      * apply (D_div (vy f) (vy g) x _ _ _ A C Nz). reflexivity.
      * apply (D_div (fun t => vd f t * vy g t - vd g t * vy f t) (fun t => vy g t * vy g t) x
                (vdd f x * vy g x + vd f x * vd g x - (vdd g x * vy f x + vd g x * vd f x))
                (vd g x * vy g x + vy g x * vd g x)).
        -- eapply D_minus; [apply (D_mult (vd f) (vy g) x _ _ _ B C eq_refl)
                            |apply (D_mult (vd g) (vy f) x _ _ _ D A eq_refl)|]. ring.
        -- apply (D_mult (vy g) (vy g) x _ _ _ C C eq_refl).
        -- apply Rmult_integral_contrapositive; auto.
        -- unfold vy, vd, vdd in *; simpl. field. exact Nz.
    + destruct Rg as (Rgg & Rf). rewrite <- vy_den in Rf by exact N2.
      destruct (IHf N1 _ Rf) as [A B]. destruct (IHg N2 x Rgg) as [C D].
      split.
      * apply (D_comp (vy f) (vy g) x _ _ _ A C eq_refl).
      * apply (D_mult (vd g) (fun t => vd f (vy g t)) x (vdd g x) (vd g x * vdd f (vy g x))).
        -- exact D.
        -- apply (D_comp (vd f) (vy g) x _ _ _ B C eq_refl).
        -- unfold vy, vd, vdd; simpl. ring.
  - destruct Rg as [Nx Rg]. simpl in N.
    assert (L : locally x (fun t => inClamp d xc t = inClamp d xc x)).
    { destruct d; simpl.
      - destruct (Rle_dec xc x).
        + generalize (loc_gt xc x ltac:(lra)); apply filter_imp; intros t Ht. destruct (Rle_dec xc t); lra || reflexivity.
        + generalize (loc_lt xc x ltac:(lra)); apply filter_imp; intros t Ht. destruct (Rle_dec xc t); lra || reflexivity.
      - destruct (Rle_dec x xc).
        + generalize (loc_lt xc x ltac:(lra)); apply filter_imp; intros t Ht. destruct (Rle_dec t xc); lra || reflexivity.
        + generalize (loc_gt xc x ltac:(lra)); apply filter_imp; intros t Ht. destruct (Rle_dec t xc); lra || reflexivity. }
    destruct (inClamp d xc x) eqn:Z.
    + assert (E : forall t, inClamp d xc t = true -> val3 (Clamp d xc f) t = (vy f xc, 0, 0)).
      { intros t Ht; simpl; rewrite Ht; reflexivity. }
      unfold vd at 1, vdd. rewrite (E x Z). cbn [fst snd].
      split.
      * apply (D_ext_loc (fun _ => vy f xc)); [|apply D_const].
        generalize L; apply filter_imp; intros t Ht. unfold vy at 2. rewrite (E t Ht). reflexivity.
      * apply (D_ext_loc (fun _ => 0)); [|apply D_const].
        generalize L; apply filter_imp; intros t Ht. unfold vd. rewrite (E t Ht). reflexivity.
    + assert (E : forall t, inClamp d xc t = false -> val3 (Clamp d xc f) t = val3 f t).
      { intros t Ht; simpl; rewrite Ht; reflexivity. }
      destruct (IHf N x Rg) as [A B].
      unfold vd at 1, vdd. rewrite (E x Z).
      split.
      * apply (D_ext_loc (vy f)); [|exact A].
        generalize L; apply filter_imp; intros t Ht. unfold vy. rewrite (E t Ht). reflexivity.
      * apply (D_ext_loc (vd f)); [|exact B].
        generalize L; apply filter_imp; intros t Ht. unfold vd. rewrite (E t Ht). reflexivity.
Qed.
