(** Proofs for the wave fields, part 1: harmonic components and linear wave theory *)
From Coq Require Import Reals List Lra Lia Psatz FunctionalExtensionality.
From Coquelicot Require Import Coquelicot.
From Verif Require Import GeoModel GeoSpec GeoProofs DispModel DispProofs WavModel WavSpec.
Import ListNotations.
Open Scope R_scope.

Ltac req := match goal with |- ?a = ?b => change (@eq R a b) end.
Ltac spl := repeat match goal with |- _ /\ _ => split end.
(** ** Complex exponentials *)
Lemma cexp_J th : cexp (JJ * RtoC th)%C = (cos th, sin th).
Proof.
  unfold cexp, JJ. replace (Re (Ci * RtoC th)%C) with 0 by (cbn; ring). replace (Im (Ci * RtoC th)%C) with th by (cbn; ring).
  rewrite exp_0. apply injective_projections; cbn; ring.
Qed.
Lemma celem a th s r : (RtoC a * cexp (JJ * RtoC th) * RtoC s * RtoC r)%C = (a * s * r * cos th, a * s * r * sin th).
Proof. rewrite cexp_J. apply injective_projections; cbn; ring. Qed.
Lemma C_scal_im c e : Im (RtoC c * e)%C = c * Im e. Proof. cbn. unfold Im. ring. Qed.
Lemma mJ_im e : Im (- JJ * e)%C = - Re e. Proof. unfold JJ, Re, Im. cbn. ring. Qed.
Lemma wk_form1 w k e D : k <> 0 -> (- JJ * RtoC w / RtoC k * e * RtoC D)%C = (RtoC (w / k * D) * (- JJ * e))%C.
Proof.
  intros H. rewrite RtoC_mult, RtoC_div by auto. assert (RtoC k <> 0%C) by (intros E; apply H; injection E; auto). field. auto.
Qed.
Lemma wk_form2 w k e D : k <> 0 -> (- JJ / RtoC k * RtoC w * e * RtoC D)%C = (RtoC (w / k * D) * (- JJ * e))%C.
Proof.
  intros H. rewrite RtoC_mult, RtoC_div by auto. assert (RtoC k <> 0%C) by (intros E; apply H; injection E; auto). field. auto.
Qed.

(** ** One component *)
Section Comp.
Variables (a k w be phi : R) (E D : R -> R).
Definition th (x y t : R) : R := k * (x * cos be + y * sin be) - w * t + phi.
Definition ceta (x y t : R) : R := a * sin (th x y t).
Definition cvel (x y z t : R) : vec :=
  V (cos be * w * (a * sin (th x y t)) * E z) (sin be * w * (a * sin (th x y t)) * E z) (- (w / k * D z * (a * cos (th x y t)))).
Definition cacc (x y z t : R) : vec :=
  V (- w * (cos be * w * (a * cos (th x y t)) * E z)) (- w * (sin be * w * (a * cos (th x y t)) * E z)) (- w * (w / k * D z * (a * sin (th x y t)))).
Definition cpre (c : R) (x y z t : R) : R := c * (E z * (a * sin (th x y t))).
Hypothesis K : k <> 0.
Hypothesis DE : forall z, is_derive E z (D z).
Hypothesis DD : forall z, is_derive D z (k * k * E z).

Lemma D_lin (f : R -> R) (z l c : R) : is_derive f z l -> is_derive (fun s => c * f s) z (c * l).
Proof. intros H. apply (is_derive_scal f z c l H). Qed.
Lemma D_linr (f : R -> R) (z l c m : R) : is_derive f z l -> m = l * c -> is_derive (fun s => f s * c) z m.
Proof. intros H ->. apply (is_derive_ext (fun s => c * f s)); [intros; apply Rmult_comm|]. rewrite Rmult_comm. apply D_lin. exact H. Qed.
Lemma cs2 : cos be * cos be + sin be * sin be = 1.
Proof. pose proof (sin2_cos2 be) as H. unfold Rsqr in H. lra. Qed.

Lemma comp_div t : divergence_free (fun x y z => cvel x y z t).
Proof using K DE DD.
  intros x y z.
  exists (cos be * w * (a * (k * cos be) * cos (th x y t)) * E z), (sin be * w * (a * (k * sin be) * cos (th x y t)) * E z), (- (w / k * (k * k * E z) * (a * cos (th x y t)))).
  cbn [cvel vx vy vz]. split; [|split; [|split]].
  - unfold th. auto_derive; [exact I|]. unfold Rminus. ring.
  - unfold th. auto_derive; [exact I|]. unfold Rminus. ring.
  - apply (is_derive_ext (fun s => (- (w / k * (a * cos (th x y t)))) * D s)); [intros; cbn; req; ring|].
    replace (- (w / k * (k * k * E z) * (a * cos (th x y t)))) with ((- (w / k * (a * cos (th x y t)))) * (k * k * E z)) by ring. apply D_lin, DD.
  - pose proof cs2 as Q. transitivity (w * a * k * E z * cos (th x y t) * (cos be * cos be + sin be * sin be) - w * a * k * E z * cos (th x y t)); [field; exact K|]. rewrite Q. ring.
Qed.
Lemma comp_irr t : irrotational (fun x y z => cvel x y z t).
Proof using K DE DD.
  intros x y z.
  exists (sin be * w * (a * sin (th x y t)) * D z), (cos be * w * (a * sin (th x y t)) * D z), (sin be * w * (a * (k * cos be) * cos (th x y t)) * E z).
  cbn [cvel vx vy vz]. split; [|split; [|split; [|split; [|split]]]].
  - unfold th. auto_derive; [exact I|]. unfold Rminus. field. exact K.
  - apply D_lin, DE.
  - apply D_lin, DE.
  - unfold th. auto_derive; [exact I|]. unfold Rminus. field. exact K.
  - unfold th. auto_derive; [exact I|]. unfold Rminus. ring.
  - unfold th. auto_derive; [exact I|]. unfold Rminus. ring.
Qed.
Lemma comp_rate : rate_of cvel cacc.
Proof using.
  intros x y z t. cbn [cvel cacc vx vy vz]. unfold th. split; [|split]; (auto_derive; [exact I|]; unfold Rminus); ring.
Qed.
Lemma comp_surf : D 0 = k -> follows_surface ceta cvel.
Proof using K.
  intros D0 x y t. cbn [cvel vz]. unfold ceta, th. auto_derive; [exact I|]. unfold Rminus. rewrite D0. field. exact K.
Qed.
Lemma comp_bed h : D (- h) = 0 -> tight_bed h cvel.
Proof using. intros H x y t. cbn [cvel vz]. rewrite H. ring. Qed.
Lemma comp_pre rho c : c * k = rho * (w * w) -> pressure_balances rho (cpre c) cacc.
Proof using K DE.
  intros C x y z t. cbn [cacc vx vy vz]. unfold cpre. split; [|split].
  - unfold th. auto_derive; [exact I|]. unfold Rminus. transitivity (c * k * (cos be * (a * cos (k * (x * cos be + y * sin be) + - (w * t) + phi)) * E z)); [ring|]. rewrite C. ring.
  - unfold th. auto_derive; [exact I|]. unfold Rminus. transitivity (c * k * (sin be * (a * cos (k * (x * cos be + y * sin be) + - (w * t) + phi)) * E z)); [ring|]. rewrite C. ring.
  - assert (C' : c = rho * (w * w) / k) by (rewrite <- C; field; exact K).
    apply (is_derive_ext (fun s => (c * (a * sin (th x y t))) * E s)); [intros; cbn; req; ring|].
    replace (- rho * (- w * (w / k * D z * (a * sin (th x y t))))) with (c * (a * sin (th x y t)) * D z) by (rewrite C'; field; exact K).
    apply D_lin, DE.
Qed.
End Comp.

(** ** Profiles *)
Lemma Ez_D inf k h z : (inf = false -> sinh (k * h) <> 0) -> is_derive (fun s => Ez inf s k h) z (diffEz inf z k h).
Proof.
  intros H. destruct inf; cbn [Ez diffEz].
  - auto_derive; [exact I|]. ring.
  - specialize (H eq_refl). apply (is_derive_ext (fun s => / sinh (k * h) * cosh (k * (s + h)))); [intros; unfold Rdiv; req; ring|].
    replace (k * sinh (k * (z + h)) / sinh (k * h)) with (/ sinh (k * h) * (k * sinh (k * (z + h)))) by (field; exact H).
    apply D_lin. apply (is_derive_comp cosh (fun s => k * (s + h)) z (sinh (k * (z + h))) k); [apply D_cosh|]. auto_derive; [exact I|]. ring.
Qed.
Lemma diffEz_D inf k h z : (inf = false -> sinh (k * h) <> 0) -> is_derive (fun s => diffEz inf s k h) z (k * k * Ez inf z k h).
Proof.
  intros H. destruct inf; cbn [Ez diffEz].
  - auto_derive; [exact I|]. ring.
  - specialize (H eq_refl). apply (is_derive_ext (fun s => k / sinh (k * h) * sinh (k * (s + h)))); [intros; unfold Rdiv; req; ring|].
    replace (k * k * (cosh (k * (z + h)) / sinh (k * h))) with (k / sinh (k * h) * (k * cosh (k * (z + h)))) by (field; exact H).
    apply D_lin. apply (is_derive_comp sinh (fun s => k * (s + h)) z (cosh (k * (z + h))) k); [apply D_sinh|]. auto_derive; [exact I|]. ring.
Qed.
Lemma diffEz_0 inf k h : (inf = false -> sinh (k * h) <> 0) -> diffEz inf 0 k h = k.
Proof. intros H. destruct inf; cbn; [rewrite Rmult_0_r, exp_0; ring|]. rewrite Rplus_0_l. field. auto. Qed.
Lemma diffEz_bed k h : diffEz false (- h) k h = 0.
Proof. cbn. replace (k * (- h + h)) with 0 by ring. rewrite sinh_0. unfold Rdiv. ring. Qed.
Lemma sinh_nz k h : k <> 0 -> h <> 0 -> sinh (k * h) <> 0.
Proof.
  intros Hk Hh. set (u := k * h). assert (u <> 0) by (unfold u; apply Rmult_integral_contrapositive; auto).
  destruct (Rtotal_order u 0) as [L|[L|L]]; [|contradiction|].
  - assert (sinh (- u) <> 0). { pose proof (sinh_ge (- u) ltac:(lra)). lra. } intros E. apply H0. unfold sinh in *. rewrite Ropp_involutive. lra.
  - pose proof (sinh_ge u ltac:(lra)). lra.
Qed.

(** ** Sums of fields *)
Fixpoint rs (l : list nat) (f : nat -> R) : R := match l with [] => 0 | i :: r => f i + rs r f end.
Fixpoint vs (l : list nat) (f : nat -> vec) : vec := match l with [] => V 0 0 0 | i :: r => vec_add (f i) (vs r f) end.
Lemma fold_rs f l : forall a, fold_left (fun acc i => acc + f i) l a = a + rs l f.
Proof. induction l as [|i l IH]; intros a; cbn; [ring|]. rewrite IH. ring. Qed.
Lemma vec_add_assoc a b c : vec_add (vec_add a b) c = vec_add a (vec_add b c).
Proof. unfold vec_add. cbn. f_equal; ring. Qed.
Lemma vec_add_0 a : vec_add (V 0 0 0) a = a. Proof. destruct a. unfold vec_add. cbn. f_equal; ring. Qed.
Lemma vec_add_0r a : vec_add a (V 0 0 0) = a. Proof. destruct a. unfold vec_add. cbn. f_equal; ring. Qed.
Lemma fold_vs f l : forall a, fold_left (fun acc i => vec_add acc (f i)) l a = vec_add a (vs l f).
Proof. induction l as [|i l IH]; intros a; cbn; [symmetry; apply vec_add_0r|]. rewrite IH, vec_add_assoc. reflexivity. Qed.
Lemma vs_parts l f : vs l f = V (rs l (fun i => vx (f i))) (rs l (fun i => vy (f i))) (rs l (fun i => vz (f i))).
Proof. induction l as [|i l IH]; cbn; [reflexivity|]. rewrite IH. reflexivity. Qed.
Lemma rs_ext l f g : (forall i, In i l -> f i = g i) -> rs l f = rs l g.
Proof. induction l as [|i l IH]; intros H; cbn; [reflexivity|]. rewrite (H i) by (left; auto). rewrite IH; [reflexivity|]. intros; apply H; right; auto. Qed.
Lemma vs_ext l f g : (forall i, In i l -> f i = g i) -> vs l f = vs l g.
Proof. induction l as [|i l IH]; intros H; cbn; [reflexivity|]. rewrite (H i) by (left; auto). rewrite IH; [reflexivity|]. intros; apply H; right; auto. Qed.
Lemma rs_scal l f c : rs l (fun i => c * f i) = c * rs l f.
Proof. induction l as [|i l IH]; cbn; [ring|]. rewrite IH. ring. Qed.
Lemma rs_swap l m f : rs l (fun i => rs m (fun j => f i j)) = rs m (fun j => rs l (fun i => f i j)).
Proof.
  induction l as [|i l IH]; cbn.
  - induction m as [|j m IHm]; cbn; [reflexivity|]. rewrite <- IHm. ring.
  - rewrite IH. clear. induction m as [|j m IHm]; cbn; [ring|]. rewrite <- IHm. ring.
Qed.

(** Everything linear wave theory asks of an elevation, a velocity, an acceleration and a pressure *)
Record linear (rho h : R) (bed : bool) (eta : R -> R -> R -> R) (U A : R -> R -> R -> R -> vec) (p : R -> R -> R -> R -> R) : Prop := Linear {
  l_div : forall t, divergence_free (fun x y z => U x y z t);
  l_irr : forall t, irrotational (fun x y z => U x y z t);
  l_rate : rate_of U A;
  l_surf : follows_surface eta U;
  l_bed : bed = true -> tight_bed h U;
  l_pre : pressure_balances rho p A }.
Lemma D0 (x : R) : is_derive (fun _ : R => 0) x 0. Proof. apply (@is_derive_const R_AbsRing). Qed.
Lemma DP (f g : R -> R) (x a b : R) : is_derive f x a -> is_derive g x b -> is_derive (fun s => f s + g s) x (a + b).
Proof. intros. apply (is_derive_plus f g x a b); auto. Qed.
Lemma linear_0 rho h bed : linear rho h bed (fun _ _ _ => 0) (fun _ _ _ _ => V 0 0 0) (fun _ _ _ _ => V 0 0 0) (fun _ _ _ _ => 0).
Proof.
  constructor.
  - intros t x y z. exists 0, 0, 0. cbn. split; [apply D0|]. split; [apply D0|]. split; [apply D0|]. ring.
  - intros t x y z. exists 0, 0, 0. cbn. spl; apply D0.
  - intros x y z t. cbn. spl; apply D0.
  - intros x y t. cbn. apply D0.
  - intros _ x y t. reflexivity.
  - intros x y z t. cbn. rewrite Rmult_0_r. spl; apply D0.
Qed.
Lemma linear_add rho h bed e1 U1 A1 p1 e2 U2 A2 p2 : linear rho h bed e1 U1 A1 p1 -> linear rho h bed e2 U2 A2 p2 ->
  linear rho h bed (fun x y t => e1 x y t + e2 x y t) (fun x y z t => vec_add (U1 x y z t) (U2 x y z t))
    (fun x y z t => vec_add (A1 x y z t) (A2 x y z t)) (fun x y z t => p1 x y z t + p2 x y z t).
Proof.
  intros [v1 i1 r1 s1 b1 q1] [v2 i2 r2 s2 b2 q2]. constructor.
  - intros t x y z. destruct (v1 t x y z) as (a & b & c & H1 & H2 & H3 & H4). destruct (v2 t x y z) as (a' & b' & c' & H1' & H2' & H3' & H4').
    exists (a + a'), (b + b'), (c + c'). cbn [vec_add vx vy vz]. split; [apply DP; auto|]. split; [apply DP; auto|]. split; [apply DP; auto|]. lra.
  - intros t x y z. destruct (i1 t x y z) as (a & b & c & H1 & H2 & H3 & H4 & H5 & H6). destruct (i2 t x y z) as (a' & b' & c' & H1' & H2' & H3' & H4' & H5' & H6').
    exists (a + a'), (b + b'), (c + c'). cbn [vec_add vx vy vz]. spl; apply DP; auto.
  - intros x y z t. destruct (r1 x y z t) as (H1 & H2 & H3). destruct (r2 x y z t) as (H1' & H2' & H3'). cbn [vec_add vx vy vz]. spl; apply DP; auto.
  - intros x y t. cbn [vec_add vz]. apply DP; [apply s1|apply s2].
  - intros B x y t. cbn [vec_add vz]. rewrite (b1 B x y t), (b2 B x y t). ring.
  - intros x y z t. destruct (q1 x y z t) as (H1 & H2 & H3). destruct (q2 x y z t) as (H1' & H2' & H3'). cbn [vec_add vx vy vz].
    rewrite !Rmult_plus_distr_l. spl; apply DP; auto.
Qed.
Lemma linear_sum rho h bed (l : list nat) e U A p : (forall i, In i l -> linear rho h bed (e i) (U i) (A i) (p i)) ->
  linear rho h bed (fun x y t => rs l (fun i => e i x y t)) (fun x y z t => vs l (fun i => U i x y z t))
    (fun x y z t => vs l (fun i => A i x y z t)) (fun x y z t => rs l (fun i => p i x y z t)).
Proof.
  induction l as [|i l IH]; intros H; cbn.
  - apply linear_0.
  - apply (linear_add rho h bed (e i) (U i) (A i) (p i)); [apply H; left; auto|]. apply IH. intros; apply H; right; auto.
Qed.
Lemma linear_ext rho h bed e U A p e' U' A' p' : (forall x y t, e x y t = e' x y t) -> (forall x y z t, U x y z t = U' x y z t) ->
  (forall x y z t, A x y z t = A' x y z t) -> (forall x y z t, p x y z t = p' x y z t) -> linear rho h bed e U A p -> linear rho h bed e' U' A' p'.
Proof.
  intros E1 E2 E3 E4. replace e' with e by (repeat (apply functional_extensionality; intro); auto). replace U' with U by (repeat (apply functional_extensionality; intro); auto).
  replace A' with A by (repeat (apply functional_extensionality; intro); auto). replace p' with p by (repeat (apply functional_extensionality; intro); auto). auto.
Qed.
(** A component is a linear wave *)
Lemma comp_linear (inf binf : bool) (a k w be phi h rho g : R) : k <> 0 -> (inf = false -> h <> 0) -> dispersion binf g h w k ->
  linear rho h (negb inf) (ceta a k w be phi) (cvel a k w be phi (fun z => Ez inf z k h) (fun z => diffEz inf z k h))
    (cacc a k w be phi (fun z => Ez inf z k h) (fun z => diffEz inf z k h))
    (cpre a k w be phi (fun z => Ez inf z k h) (rho * g * (if binf then 1 else tanh (k * h)))).
Proof.
  intros K H Dp. assert (S : inf = false -> sinh (k * h) <> 0) by (intros; apply sinh_nz; auto).
  assert (DE : forall z : R, is_derive (fun z => Ez inf z k h) z (diffEz inf z k h)) by (intros; apply Ez_D; auto).
  assert (DD : forall z : R, is_derive (fun z => diffEz inf z k h) z (k * k * Ez inf z k h)) by (intros; apply diffEz_D; auto).
  constructor.
  - intros t. apply comp_div; auto.
  - intros t. apply comp_irr; auto.
  - apply comp_rate.
  - apply comp_surf; auto. apply diffEz_0; auto.
  - intros B. destruct inf; [discriminate|]. apply comp_bed. apply diffEz_bed.
  - apply comp_pre; auto. unfold dispersion in Dp. rewrite Dp. ring.
Qed.
