(** Ramps. *)
From Coq Require Import Reals List Lra Lia.
From Coquelicot Require Import Coquelicot.
From Verif Require Import FunModel FunSpec FunProofs FunProofs2.
Open Scope R_scope.

(** x brought back into [x0,x1] *)
Definition sat (x0 x1 x : R) : R := Rmax x0 (Rmin x1 x).
Lemma sat_lip x0 x1 a b : x0 < x1 -> Rabs (sat x0 x1 a - sat x0 x1 b) <= Rabs (a - b).
Proof.
  intros H. unfold sat, Rmax, Rmin.
  destruct (Rle_dec x1 a), (Rle_dec x1 b);
  repeat match goal with |- context [Rle_dec ?u ?v] => destruct (Rle_dec u v) end;
  unfold Rabs; repeat destruct Rcase_abs; lra.
Qed.
Lemma sat_mono x0 x1 a b : a <= b -> sat x0 x1 a <= sat x0 x1 b.
Proof. intros H. apply Rle_max_compat_l, Rle_min_compat_l, H. Qed.
Lemma sat_in x0 x1 a : x0 < x1 -> x0 <= sat x0 x1 a <= x1.
Proof.
  intros H. unfold sat, Rmax, Rmin. destruct (Rle_dec x1 a);
  repeat match goal with |- context [Rle_dec ?u ?v] => destruct (Rle_dec u v) end; lra.
Qed.
Lemma sat_low x0 x1 a : x0 < x1 -> a <= x0 -> sat x0 x1 a = x0.
Proof. intros. unfold sat. rewrite Rmin_right, Rmax_left; lra. Qed.
Lemma sat_high x0 x1 a : x0 < x1 -> x1 <= a -> sat x0 x1 a = x1.
Proof. intros. unfold sat. rewrite Rmin_left, Rmax_right; lra. Qed.
Lemma sat_mid x0 x1 a : x0 <= a <= x1 -> sat x0 x1 a = a.
Proof. intros. unfold sat. rewrite Rmin_right, Rmax_right; lra. Qed.
Lemma sat_cont x0 x1 a : x0 < x1 -> continuity_pt (sat x0 x1) a.
Proof.
  intros H eps He. exists eps. split; [exact He|]. intros t [_ Ht]. unfold R_dist in *. simpl in *. unfold R_dist in *.
  eapply Rle_lt_trans; [apply sat_lip; exact H|exact Ht].
Qed.

Lemma den_clamps f x0 x1 x : x0 < x1 -> den (Clamp After x1 (Clamp Before x0 f)) x = den f (sat x0 x1 x).
Proof.
  intros H. cbn [den]. destruct (Rle_dec x1 x) as [A|A].
  - destruct (Rle_dec x1 x0); [lra|]. rewrite sat_high; auto.
  - destruct (Rle_dec x x0) as [B|B]; [rewrite sat_low; auto|]. rewrite sat_mid; auto; lra.
Qed.
Lemma linRamp_den x0 y0 x1 y1 x : x0 < x1 ->
  den (linRamp x0 y0 x1 y1) x = y0 + (y1 - y0) / (x1 - x0) * (sat x0 x1 x - x0).
Proof.
  intros H. unfold linRamp, linRampInner. cbn [den denU]. fold (den (Clamp Before x0 Var)).
  transitivity (den (Bin BAdd (Bin BMul (Cst ((y1 - y0) / (x1 - x0))) Var) (Cst (y0 - (y1 - y0) / (x1 - x0) * x0))) (sat x0 x1 x)).
  - rewrite <- den_clamps by exact H. reflexivity.
  - cbn [den]. field. lra.
Qed.
Lemma cosRamp_den x0 y0 x1 y1 x : x0 < x1 ->
  den (cosRamp x0 y0 x1 y1) x = y0 + / 2 * (y1 - y0) * (1 - cos (PI / (x1 - x0) * (sat x0 x1 x - x0))).
Proof.
  intros H. unfold cosRamp, cosRampInner. cbn [denU].
  change (den (Un UWrap ?f) x) with (den f x). rewrite den_clamps by exact H. reflexivity.
Qed.
Lemma noAsinh_lin x0 y0 x1 y1 : noAsinh (linRamp x0 y0 x1 y1).
Proof. simpl; intuition discriminate. Qed.
Lemma noAsinh_cos x0 y0 x1 y1 : noAsinh (cosRamp x0 y0 x1 y1).
Proof. simpl; intuition discriminate. Qed.

Lemma vd_cos x0 y0 x1 y1 x : x0 < x1 ->
  vd (cosRamp x0 y0 x1 y1) x = / 2 * (y1 - y0) * (PI / (x1 - x0)) * sin (PI / (x1 - x0) * (sat x0 x1 x - x0)).
Proof.
  intros H. unfold vd, cosRamp, cosRampInner. cbn [val3 unF binF inClamp fst snd].
  destruct (Rle_dec x1 x) as [A|A]; cbn [fst snd].
  - rewrite sat_high by auto. replace (PI / (x1 - x0) * (x1 - x0)) with PI by (field; lra). rewrite sin_PI. ring.
  - destruct (Rle_dec x x0) as [B|B]; cbn [fst snd].
    + rewrite sat_low by auto. rewrite Rminus_eq_0, Rmult_0_r, sin_0. ring.
    + rewrite sat_mid by lra. ring.
Qed.

(** a function that near x takes its values from two functions tangent at x *)
Lemma D_join (f g1 g2 : R -> R) (x l : R) :
  f x = g1 x -> f x = g2 x -> (forall t, f t = g1 t \/ f t = g2 t) ->
  derivable_pt_lim g1 x l -> derivable_pt_lim g2 x l -> derivable_pt_lim f x l.
Proof.
  intros E1 E2 J D1 D2 eps He. destruct (D1 eps He) as [d1 H1], (D2 eps He) as [d2 H2].
  assert (P : 0 < Rmin d1 d2) by (apply Rmin_pos; [apply d1|apply d2]).
  exists (mkposreal _ P). intros h Hn Hh. cbn [pos] in Hh.
  destruct (J (x + h)) as [->| ->]; [rewrite E1; apply H1|rewrite E2; apply H2]; auto;
    eapply Rlt_le_trans; try exact Hh; [apply Rmin_l|apply Rmin_r].
Qed.

Lemma cos_phi_D y0 A w x0 x : is_derive (fun t => y0 + A * (1 - cos (w * (t - x0)))) x (A * w * sin (w * (x - x0))).
Proof. auto_derive; [auto|foldm; toR; ring]. Qed.

Lemma cosRamp_C1 x0 y0 x1 y1 x : x0 < x1 ->
  derivable_pt_lim (den (cosRamp x0 y0 x1 y1)) x (vd (cosRamp x0 y0 x1 y1) x).
Proof.
  intros H. rewrite vd_cos by exact H.
  set (A := / 2 * (y1 - y0)). set (w := PI / (x1 - x0)).
  set (phi := fun t => y0 + A * (1 - cos (w * (t - x0)))).
  assert (E : forall t, den (cosRamp x0 y0 x1 y1) t = phi (sat x0 x1 t)) by (intros; apply cosRamp_den; exact H).
  assert (Dphi : forall t, derivable_pt_lim phi t (A * w * sin (w * (t - x0)))).
  { intros t. apply is_derive_Reals. apply cos_phi_D. }
  assert (S0 : A * w * sin (w * (x0 - x0)) = 0) by (rewrite Rminus_eq_0, Rmult_0_r, sin_0; ring).
  assert (S1 : A * w * sin (w * (x1 - x0)) = 0).
  { replace (w * (x1 - x0)) with PI by (unfold w; field; lra). rewrite sin_PI; ring. }
  assert (K : forall c, derivable_pt_lim (fun _ => c) x 0) by (intros c; apply derivable_pt_lim_const).
  destruct (Rlt_dec x x0) as [L0|L0]; [|destruct (Req_dec x x0) as [->|L1]; [|destruct (Rlt_dec x x1) as [L2|L2]; [|destruct (Req_dec x x1) as [->|L3]]]].
  - rewrite sat_low, S0 by lra. apply is_derive_Reals.
    apply (D_ext_loc (fun _ => phi x0)); [|apply D_const].
    generalize (loc_lt x0 x L0); apply filter_imp; intros t Ht. rewrite E, sat_low; lra.
  - rewrite sat_low by lra. set (cl := fun t => phi (Rmin x1 t)).
    apply (D_join _ (fun _ => phi x0) cl).
    + rewrite E, sat_low; lra.
    + rewrite E, sat_low by lra. unfold cl; rewrite Rmin_right; lra.
    + intros t. rewrite E. unfold sat, Rmax, cl. destruct (Rle_dec x0 (Rmin x1 t)); auto.
    + rewrite S0. apply K.
    + apply is_derive_Reals. apply (D_ext_loc phi); [|apply is_derive_Reals, Dphi].
      generalize (loc_lt x1 x0 H); apply filter_imp; intros t Ht. unfold cl; rewrite Rmin_right; lra.
  - rewrite sat_mid by lra. apply is_derive_Reals. apply (D_ext_loc phi); [|apply is_derive_Reals, Dphi].
    generalize (filter_and _ _ (loc_lt x1 x L2) (loc_gt x0 x ltac:(lra))); apply filter_imp; intros t Ht. rewrite E, sat_mid; lra.
  - rewrite sat_high by lra. set (cl := fun t => phi (Rmax x0 t)).
    apply (D_join _ (fun _ => phi x1) cl).
    + rewrite E, sat_high; lra.
    + rewrite E, sat_high by lra. unfold cl; rewrite Rmax_right; lra.
    + intros t. rewrite E. unfold sat, cl. destruct (Rle_dec x1 t) as [r|r].
      * left. rewrite Rmin_left, Rmax_right; lra.
      * right. rewrite Rmin_right by lra. reflexivity.
    + rewrite S1. apply K.
    + apply is_derive_Reals. apply (D_ext_loc phi); [|apply is_derive_Reals, Dphi].
      generalize (loc_gt x0 x1 H); apply filter_imp; intros t Ht. unfold cl; rewrite Rmax_right; lra.
  - rewrite sat_high, S1 by lra. apply is_derive_Reals.
    apply (D_ext_loc (fun _ => phi x1)); [|apply D_const].
    generalize (loc_gt x1 x ltac:(lra)); apply filter_imp; intros t Ht. rewrite E, sat_high; lra.
Qed.

Lemma vd_cos_cont x0 y0 x1 y1 x : x0 < x1 -> continuity_pt (vd (cosRamp x0 y0 x1 y1)) x.
Proof.
  intros H.
  set (psi := fun t => / 2 * (y1 - y0) * (PI / (x1 - x0)) * sin (PI / (x1 - x0) * (t - x0))).
  apply (continuity_pt_ext (fun t => psi (sat x0 x1 t))).
  - intros t. symmetry. apply vd_cos; exact H.
  - apply (continuity_pt_comp (sat x0 x1) psi); [apply sat_cont; exact H|].
    unfold psi. reg.
Qed.

Lemma mk_isRamp x0 y0 x1 y1 f r :
  x0 < x1 -> (forall x, f x = y0 + (y1 - y0) * r (sat x0 x1 x)) ->
  r x0 = 0 -> r x1 = 1 -> (forall a b, x0 <= a -> a <= b -> b <= x1 -> r a <= r b) ->
  (forall a, continuity_pt r a) -> isRamp x0 y0 x1 y1 f.
Proof.
  intros H E R0 R1 M C.
  assert (MM : forall a b, a <= b -> r (sat x0 x1 a) <= r (sat x0 x1 b)).
  { intros a b Hab. apply M; [apply sat_in; exact H|apply sat_mono; exact Hab|apply sat_in; exact H]. }
  assert (B : forall x, 0 <= r (sat x0 x1 x) <= 1).
  { intros x. destruct (sat_in x0 x1 x H). assert (r x0 <= r (sat x0 x1 x)) by (apply M; lra). assert (r (sat x0 x1 x) <= r x1) by (apply M; lra). lra. }
  split.
  - intros x Hx. rewrite E, sat_low, R0 by lra. ring.
  - intros x Hx. rewrite E, sat_high, R1 by lra. ring.
  - intros Hy a b Hab. rewrite !E. specialize (MM a b Hab). nra.
  - intros Hy a b Hab. rewrite !E. specialize (MM a b Hab). nra.
  - intros x. rewrite E. specialize (B x). unfold Rmin, Rmax. destruct (Rle_dec y0 y1); nra.
  - intros x. apply (continuity_pt_ext (fun t => y0 + (y1 - y0) * r (sat x0 x1 t))); [intros t; symmetry; apply E|].
    apply continuity_pt_plus; [apply continuity_pt_const; intros ? ?; reflexivity|].
    apply continuity_pt_mult; [apply continuity_pt_const; intros ? ?; reflexivity|].
    apply (continuity_pt_comp (sat x0 x1) r); [apply sat_cont; exact H|apply C].
Qed.

Lemma linRamp_isRamp x0 y0 x1 y1 : x0 < x1 -> isRamp x0 y0 x1 y1 (den (linRamp x0 y0 x1 y1)).
Proof.
  intros H. apply (mk_isRamp _ _ _ _ _ (fun t => (t - x0) / (x1 - x0))); auto.
  - intros x. rewrite linRamp_den by exact H. unfold Rdiv. ring.
  - field; lra.
  - field; lra.
  - intros a b _ Hab _. apply Rmult_le_compat_r; [left; apply Rinv_0_lt_compat|]; lra.
  - intros a. reg.
Qed.
Lemma cosRamp_isRamp x0 y0 x1 y1 : x0 < x1 -> isRamp x0 y0 x1 y1 (den (cosRamp x0 y0 x1 y1)).
Proof.
  intros H. apply (mk_isRamp _ _ _ _ _ (fun t => (1 - cos (PI / (x1 - x0) * (t - x0))) / 2)); auto.
  - intros x. rewrite cosRamp_den by exact H. field; lra.
  - rewrite Rminus_eq_0, Rmult_0_r, cos_0. field.
  - replace (PI / (x1 - x0) * (x1 - x0)) with PI by (field; lra). rewrite cos_PI. field.
  - intros a b Ha Hab Hb. assert (P := PI_RGT_0).
    assert (Q : 0 < PI / (x1 - x0)) by (apply Rdiv_lt_0_compat; lra).
    assert (W : PI / (x1 - x0) * (x1 - x0) = PI) by (field; lra).
    assert (cos (PI / (x1 - x0) * (b - x0)) <= cos (PI / (x1 - x0) * (a - x0))).
    { apply cos_decr_1; try nra. }
    lra.
  - intros a. reg.
Qed.

(** Transfer to the objects. *)
Lemma answer_den e s : reachU e s -> noAsinh e -> offset e s = 0 -> forall x, answer QY e s x = den e x.
Proof. intros H N O x. rewrite <- (textbook e s nil x H N), O, Rminus_0_r || (generalize (textbook e s nil x H N); simpl; rewrite O, Rminus_0_r; auto). Qed.
Lemma isRamp_ext x0 y0 x1 y1 f g : (forall x, f x = g x) -> isRamp x0 y0 x1 y1 f -> isRamp x0 y0 x1 y1 g.
Proof.
  intros E [A B C D F G]. split; intros; rewrite <- ?E; auto.
  - apply (continuity_pt_ext f); auto.
Qed.
Lemma linRamp_obj x0 y0 x1 y1 s : x0 < x1 -> reachU (linRamp x0 y0 x1 y1) s -> offset _ s = 0 ->
  isRamp x0 y0 x1 y1 (answer QY _ s) /\
  forall x, x0 <= x <= x1 -> answer QY _ s x = y0 + (y1 - y0) / (x1 - x0) * (x - x0).
Proof.
  intros H R O. assert (E := answer_den _ s R (noAsinh_lin _ _ _ _) O). split.
  - eapply isRamp_ext; [intros x; symmetry; apply E|]. apply linRamp_isRamp; exact H.
  - intros x Hx. rewrite E, linRamp_den, sat_mid; auto.
Qed.
Lemma cosRamp_obj x0 y0 x1 y1 s : x0 < x1 -> reachU (cosRamp x0 y0 x1 y1) s -> offset _ s = 0 ->
  isRamp x0 y0 x1 y1 (answer QY _ s) /\
  (forall x, x0 <= x <= x1 -> answer QY _ s x = y0 + (y1 - y0) * (1 - cos (PI * (x - x0) / (x1 - x0))) / 2) /\
  (forall x, derivable_pt_lim (answer QY _ s) x (answer QD _ s x)) /\
  (forall x, continuity_pt (answer QD _ s) x).
Proof.
  intros H R O. assert (E := answer_den _ s R (noAsinh_cos _ _ _ _) O).
  assert (E' : forall x, answer QD _ s x = vd (cosRamp x0 y0 x1 y1) x).
  { intros x. unfold answer, offset in *. rewrite (get_val true) by (auto using reachU_ok). rewrite O, Rminus_0_r. reflexivity. }
  split; [|split; [|split]].
  - eapply isRamp_ext; [intros x; symmetry; apply E|]. apply cosRamp_isRamp; exact H.
  - intros x Hx. rewrite E, cosRamp_den, sat_mid; auto.
    replace (PI * (x - x0) / (x1 - x0)) with (PI / (x1 - x0) * (x - x0)) by (field; lra). field.
  - intros x. rewrite E'. apply is_derive_Reals. eapply D_ext_loc; [|apply is_derive_Reals, cosRamp_C1; exact H].
    apply filter_forall; intros t. symmetry; apply E.
  - intros x. apply (continuity_pt_ext (vd (cosRamp x0 y0 x1 y1))); [intros t; symmetry; apply E'|].
    apply vd_cos_cont; exact H.
Qed.

(** the objects built by the constructors of the ramps *)
Definition newLinRamp x0 y0 x1 y1 : state (linRamp x0 y0 x1 y1) :=
  newUn UWrap _ (newClamp After x1 _ (newClamp Before x0 _
    (newBin BAdd _ _ (newBin BMul _ _ (newCst _) newVar) (newCst _)))).
Definition newCosRamp x0 y0 x1 y1 : state (cosRamp x0 y0 x1 y1) :=
  newUn UWrap _ (newClamp After x1 _ (newClamp Before x0 _
    (newBin BAdd _ _ (newCst _) (newBin BMul _ _ (newCst _) (newBin BSub _ _ (newCst _)
       (newUn UCos _ (newBin BMul _ _ (newCst _) (newBin BSub _ _ newVar (newCst _))))))))).
Lemma newLinRamp_reach x0 y0 x1 y1 : reachU _ (newLinRamp x0 y0 x1 y1).
Proof. repeat constructor. Qed.
Lemma newCosRamp_reach x0 y0 x1 y1 : reachU _ (newCosRamp x0 y0 x1 y1).
Proof. repeat constructor. Qed.

(** SetByTwoPoints on a ramp that has already been evaluated: the answer at the cached abscissa is stale *)
Lemma ramp_stale :
  let s := fst (get QY _ (newLinRamp 0 0 1 1) 2) in
  answer QY (linRamp 0 0 1 5) (setInner UWrap (linRampInner 0 0 1 1) (linRampInner 0 0 1 5) s (snd (newLinRamp 0 0 1 5))) 2 = 1.
Proof.
  cbn zeta. unfold linRamp at 1. rewrite un_hit.
  - change (answer QY _ (newLinRamp 0 0 1 1) 2 = 1).
    destruct (linRamp_obj 0 0 1 1 _ ltac:(lra) (newLinRamp_reach 0 0 1 1) eq_refl) as [[_ A _ _ _ _] _].
    apply A; lra.
  - reflexivity.
Qed.

Lemma clamp_obj d b f s x :
  reachU (Clamp d b f) s -> offset _ s = 0 -> noAsinh f ->
  (match d with After => x <= b | Before => b <= x end -> answer QY _ s x = den f x) /\
  (match d with After => b <= x | Before => x <= b end ->
     answer QY _ s x = den f b /\ answer QD _ s x = 0 /\ answer QDD _ s x = 0).
Proof.
  intros H O N. assert (E := answer_den _ s H N O). split; intros L.
  - rewrite E. cbn [den]. destruct d.
    + destruct (Rle_dec b x); [f_equal; lra|reflexivity].
    + destruct (Rle_dec x b); [f_equal; lra|reflexivity].
  - rewrite E.
    assert (Z : inClamp d b x = true).
    { destruct d; cbn [inClamp]; [destruct (Rle_dec b x)|destruct (Rle_dec x b)]; tauto. }
    unfold answer, offset in *. rewrite !(get_val true) by (auto using reachU_ok). rewrite O, Rminus_0_r.
    unfold vd, vdd. cbn [val3]. rewrite Z. cbn [fst snd]. repeat split.
    cbn [den]. destruct d; [destruct (Rle_dec b x)|destruct (Rle_dec x b)]; tauto.
Qed.

Lemma compound_pos o b f s g t : o = UPos \/ o = UWrap -> b <> BComp -> reachU f s -> reachU g t -> noAsinh f -> noAsinh g ->
  exists e' s', compound b (Un o f) (newUn o f s) g t = Some (existT state e' s') /\
    reachU e' s' /\ offset e' s' = 0 /\ forall x, answer QY e' s' x = den (Bin b (Un o f) g) x.
Proof.
  intros Ho Hb Hf Hg Nf Ng.
  exists (Un o (Bin b f g)), (newUn o (Bin b f g) (newBin b f g (clone f s) t)). split; [reflexivity|].
  assert (Rr : reachU (Un o (Bin b f g)) (newUn o (Bin b f g) (newBin b f g (clone f s) t))) by (repeat constructor; assumption).
  split; [exact Rr|]. split; [reflexivity|].
  intros x. rewrite answer_den; [|exact Rr|simpl; destruct Ho; subst; intuition discriminate|reflexivity].
  destruct Ho; subst o; destruct b; try reflexivity; congruence.
Qed.

(** A reconfigured object answers rightly at every abscissa but the one of the last query. *)
Lemma un_miss o f c (sf : state f) x : cx c <> Some (x - off c) -> ok true f sf -> off (top f sf) = 0 -> noAsinh (Un o f) ->
  answer QY (Un o f) (c, sf) x = den (Un o f) (x - off c).
Proof.
  intros M K O N. unfold answer, get, ask. cbn [snd top eval fst].
  assert (E : isEval c (x - off c) = false).
  { unfold isEval. destruct (cx c) as [x0|]; [|reflexivity]. destruct (Req_EM_T x0 (x - off c)); congruence. }
  rewrite E. cbn [readq fst]. rewrite ask3_val by assumption.
  transitivity (vy (Un o f) (x - off c)); [|apply vy_den; exact N].
  unfold vy, vd, vdd. cbn [val3 store cy]. destruct (val3 f (x - off c)) as [[? ?] ?]. reflexivity.
Qed.
Lemma setPow_miss p p' f s x : reachU (Un (UPow p) f) s -> noAsinh f -> cx (fst s) <> Some (x - offset _ s) ->
  answer QY (Un (UPow p') f) (setPow p p' f s) x = c_pow (den f (x - offset _ s)) p'.
Proof.
  intros R N M. apply reachU_ok in R. destruct s as [c sf]. destruct R as (_ & K & O).
  unfold setPow. rewrite un_miss; auto. simpl; split; [discriminate|exact N].
Qed.
Lemma setInner_miss f f' s t x : reachU (Un UWrap f) s -> reachU f' t -> noAsinh f' -> cx (fst s) <> Some (x - offset _ s) ->
  answer QY (Un UWrap f') (setInner UWrap f f' s t) x = den f' (x - offset _ s).
Proof.
  intros R Rt N M. destruct s as [c sf].
  unfold setInner. cbn [fst snd] in *. rewrite un_miss; auto using ok_clone, reachU_ok, off_clone.
  simpl; split; [discriminate|exact N].
Qed.

(** ** C09: coefficient getters *)
Lemma lin_coefficients o x0 y0 x1 y1 k i : x0 <> x1 ->
  (let o' := linSetByTwoPoints x0 y0 x1 y1 o in
   linGetSlope o' * x0 + linGetIntercept o' = y0 /\ linGetSlope o' * x1 + linGetIntercept o' = y1) /\
  linGetSlope (linSetSlope k o) = k /\ linGetIntercept (linSetSlope k o) = linGetIntercept o /\
  linGetIntercept (linSetIntercept i o) = i /\ linGetSlope (linSetIntercept i o) = linGetSlope o /\
  linGetSlope (linSet i k o) = k /\ linGetIntercept (linSet i k o) = i.
Proof.
  intros H. unfold linGetSlope, linGetIntercept, linSetByTwoPoints, linSetSlope, linSetIntercept, linSet; cbn [l_slope l_int].
  repeat split; field; lra.
Qed.
(** ** C10: plateaus *)
Lemma tanh_same h : forall o, tSame o (tRun h o).
Proof.
  induction h as [|a h IH]; intros o; cbn [tRun]; [repeat split|].
  assert (S1 : tSame o (fst (tanhGet o a))).
  { unfold tanhGet, tanhEval; cbn [fst]. destruct Rle_dec; [repeat split|]. destruct Rle_dec; [repeat split|].
    destruct (fst (t_cell o)); [destruct Req_EM_T|]; repeat split. }
  specialize (IH (fst (tanhGet o a))). unfold tSame in *. intuition congruence.
Qed.
Lemma tanh_plateaus tol x0 y0 x1 y1 h x : x0 <= x1 ->
  let o := tRun h (tanhNew tol x0 y0 x1 y1) in
  (x <= 2 * x0 -> snd (tanhGet o x) = y0) /\ (x0 < x1 -> x0 + x1 <= x -> snd (tanhGet o x) = y1).
Proof.
  intros Hx o. destruct (tanh_same h (tanhNew tol x0 y0 x1 y1)) as (A & B & C & D & E). fold o in A, B, C, D, E.
  cbn [tanhNew t_off t_w t_h t_y t_a] in A, B, C, D, E.
  unfold tanhGet, tanhEval; cbn [fst snd]; rewrite <- A, <- B, <- C, <- D. split; intros.
  - destruct (Rle_dec (x - x0) x0); [reflexivity|lra].
  - destruct (Rle_dec (x - x0) x0); [lra|]. destruct (Rle_dec (x0 + (x1 - x0)) (x - x0)); [cbn; ring|lra].
Qed.
Lemma tanh_end tol x0 y0 x1 y1 : 0 < x0 -> x0 < x1 <= 2 * x0 -> y0 <> y1 ->
  snd (tanhGet (tanhNew tol x0 y0 x1 y1) x1) <> y1.
Proof.
  intros H H1 Hy. destruct (tanh_plateaus tol x0 y0 x1 y1 nil x1) as [A _]; [lra|]. cbn [tRun] in A. rewrite A by lra. exact Hy.
Qed.
