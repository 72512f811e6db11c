From Coq Require Import Reals List Lra Lia Psatz Bool.
From Verif Require Import GeoModel GeoSpec SeaModel FloModel EnvModel EnvSpec EnvProofs.
Import ListNotations.
Open Scope R_scope.

Lemma bind_ok : forall (A B : Type) (r : res A) (f : A -> res B) b, rbind r f = Ok b -> exists a, r = Ok a /\ f a = Ok b.
Proof. intros A B [] f b H; try discriminate. eauto. Qed.
Ltac bo H a E := apply bind_ok in H; destruct H as [a [E H]].

Lemma run_app : forall l1 l2 e e', env_run e (l1 ++ l2) = Ok e' -> exists m, env_run e l1 = Ok m /\ env_run m l2 = Ok e'.
Proof.
  induction l1 as [|o l1 IH]; intros l2 e e' H; [exists e; split; [reflexivity|exact H]|].
  cbn [app env_run] in *. bo H x E. destruct (IH _ _ _ H) as [m [Em E']]. exists m. rewrite E. split; assumption.
Qed.
Lemma run_app_ok : forall l1 l2 e m, env_run e l1 = Ok m -> env_run e (l1 ++ l2) = env_run m l2.
Proof.
  induction l1 as [|o l1 IH]; intros l2 e m H; cbn [app env_run] in *; [inversion H; reflexivity|].
  bo H x E. rewrite E. cbn [rbind]. apply IH; exact H.
Qed.

(** ** the tide of a reached state *)
Definition calm (t : tidal) : Prop := td_mode t = NO_TIDAL /\ td_h1 t = 0 /\ td_frame t = Some 0.
Lemma calm_update : forall t time, calm t -> exists t', tidal_update t time = Ok t' /\ calm t'.
Proof. intros t time (M & H & F). unfold tidal_update. rewrite M, F, H. cbn [rbind]. eexists; split; [reflexivity|]. repeat split; assumption. Qed.
Lemma calm_height : forall t fc, calm t -> GetHeight t fc = Ok 0.
Proof. intros t fc (M & H & F). unfold GetHeight. rewrite F. destruct (IsNED fc); f_equal; lra. Qed.
Lemma step_calm : forall e o e', calm (n_tide e) -> env_step e o = Ok e' -> calm (n_tide e').
Proof.
  intros e o e' C H. destruct o; cbn [env_step] in H.
  - destruct (n_show e); [|inversion H; subst; exact C]. destruct (calm_update _ time C) as [t' [E C']]. rewrite E in H. cbn [rbind] in H.
    unfold waves_update in H. bo H d Ed. inversion H; subst. exact C'.
  - destruct (n_show e); [|inversion H; subst; exact C]. unfold waves_init in H. bo H d Ed. inversion H; subst. exact C.
  - inversion H; subst; exact C.
  - destruct show; inversion H; subst; cbn [n_tide]; [exact C|]. destruct C as (M & Z & F). repeat split; assumption.
  - inversion H; subst; exact C.
  - inversion H; subst; exact C.
  - bo H s Es. inversion H; subst; exact C.
  - inversion H; subst; exact C.
  - inversion H; subst; exact C.
  - inversion H; subst; exact C.
  - inversion H; subst; exact C.
  - inversion H; subst; exact C.
Qed.
Lemma run_calm : forall l e e', calm (n_tide e) -> env_run e l = Ok e' -> calm (n_tide e').
Proof. induction l as [|o l IH]; intros e e' C H; cbn [env_run] in H; [inversion H; subst; exact C|]. bo H x E. eauto using step_calm. Qed.
Lemma new_calm : forall lev h2 t0 d0, calm (n_tide (new_env lev h2 t0 d0)).
Proof. intros. repeat split; reflexivity. Qed.
Lemma reached_calm : forall l e, reached l e -> calm (n_tide e).
Proof. intros l e (lev & h2 & t0 & d0 & H). eapply run_calm; [apply new_calm|exact H]. Qed.
Lemma surface_elevation : forall l e x y fc, reached l e -> GetSurfacePosition e x y fc = Ok (GetElevation e x y fc).
Proof. intros l e x y fc H. unfold GetSurfacePosition. rewrite (calm_height _ fc (reached_calm _ _ H)). cbn [rbind]. unfold GetElevation. f_equal. lra. Qed.
Lemma elevation_ned : forall e x y, GetElevation e x y NED = - GetElevation e x (- y) NWU.
Proof. intros. unfold GetElevation, wave_elevation. destruct (wv_eta _); cbn [IsNED]; lra. Qed.

(** ** what a step leaves alone *)
Ltac step_cases H := match type of H with env_step ?e ?o = Ok ?e' => destruct o; cbn [env_step] in H end.
Lemma update_frame : forall e time e', n_show e = true -> calm (n_tide e) -> env_step e (OUpdate time) = Ok e' ->
  n_water e' = n_water e /\ n_seabed e' = n_seabed e /\ n_show e' = n_show e /\ n_air e' = n_air e /\ n_gz e' = n_gz e /\
  wv_eta (n_waves e') = wv_eta (n_waves e) /\ wv_time (n_waves e') = time /\ wv_inf (n_waves e') = wv_inf (n_waves e).
Proof.
  intros e time e' S C H. cbn [env_step] in H. rewrite S in H. bo H t Et. unfold waves_update in H. bo H d Ed. inversion H; subst. cbn. rewrite S. repeat split.
Qed.
Lemma init_frame : forall e e', env_step e OInitialize = Ok e' ->
  n_water e' = n_water e /\ n_seabed e' = n_seabed e /\ n_show e' = n_show e /\ n_air e' = n_air e /\ n_gz e' = n_gz e /\
  wv_eta (n_waves e') = wv_eta (n_waves e) /\ wv_time (n_waves e') = wv_time (n_waves e).
Proof.
  intros e e' H. cbn [env_step] in H. destruct (n_show e) eqn:S; [|inversion H; subst; rewrite S; repeat split].
  unfold waves_init in H. bo H d Ed. inversion H; subst. cbn. rewrite S. repeat split.
Qed.
Lemma upd_any : forall e time e', env_step e (OUpdate time) = Ok e' ->
  n_water e' = n_water e /\ n_seabed e' = n_seabed e /\ n_show e' = n_show e /\ n_air e' = n_air e /\ n_gz e' = n_gz e /\
  wv_eta (n_waves e') = wv_eta (n_waves e) /\ wv_inf (n_waves e') = wv_inf (n_waves e).
Proof.
  intros e time e' H. cbn [env_step] in H. destruct (n_show e) eqn:S; [|inversion H; subst; rewrite S; repeat split].
  bo H t Et. unfold waves_update in H. bo H d Ed. inversion H; subst. cbn. rewrite S. repeat split.
Qed.
Lemma step_water : forall k o e e', sets_water k o = false -> env_step e o = Ok e' -> get_prop (n_water e') k = get_prop (n_water e) k.
Proof.
  intros k o e e' N H. destruct o; try (apply upd_any in H; destruct H as [-> _]; reflexivity); try (apply init_frame in H; destruct H as [-> _]; reflexivity); cbn [env_step] in H;
    try (inversion H; subst; reflexivity); try (destruct show; inversion H; subst; reflexivity); try (bo H s Es; inversion H; subst; reflexivity).
  inversion H; subst. cbn [n_water]. destruct k, k0; cbn in N; try discriminate; reflexivity.
Qed.
Lemma step_air : forall k o e e', sets_air k o = false -> env_step e o = Ok e' -> get_prop (n_air e') k = get_prop (n_air e) k.
Proof.
  intros k o e e' N H. destruct o; try (apply upd_any in H; destruct H as (_ & _ & _ & -> & _); reflexivity); try (apply init_frame in H; destruct H as (_ & _ & _ & -> & _); reflexivity); cbn [env_step] in H;
    try (inversion H; subst; reflexivity); try (destruct show; inversion H; subst; reflexivity); try (bo H s Es; inversion H; subst; reflexivity).
  inversion H; subst. cbn [n_air]. destruct k, k0; cbn in N; try discriminate; reflexivity.
Qed.
Lemma step_gravity : forall o e e', sets_gravity o = false -> env_step e o = Ok e' -> n_gz e' = n_gz e.
Proof.
  intros o e e' N H. destruct o; try (apply upd_any in H; destruct H as (_ & _ & _ & _ & -> & _); reflexivity); try (apply init_frame in H; destruct H as (_ & _ & _ & _ & -> & _); reflexivity); cbn [env_step] in H;
    try (inversion H; subst; reflexivity); try (destruct show; inversion H; subst; reflexivity); try (bo H s Es; inversion H; subst; reflexivity). discriminate.
Qed.
Lemma step_seabed : forall o e e', on_seabed o = false -> env_step e o = Ok e' -> n_seabed e' = n_seabed e.
Proof.
  intros o e e' N H. destruct o; try (apply upd_any in H; destruct H as (_ & -> & _); reflexivity); try (apply init_frame in H; destruct H as (_ & -> & _); reflexivity); cbn [env_step] in H;
    try discriminate; try (inversion H; subst; reflexivity); try (destruct show; inversion H; subst; reflexivity).
Qed.
Lemma step_eta : forall o e e', on_waves o = false -> env_step e o = Ok e' -> wv_eta (n_waves e') = wv_eta (n_waves e).
Proof.
  intros o e e' N H. destruct o; try (apply upd_any in H; destruct H as (_ & _ & _ & _ & _ & -> & _); reflexivity); try (apply init_frame in H; destruct H as (_ & _ & _ & _ & _ & -> & _); reflexivity); cbn [env_step] in H;
    try discriminate; try (inversion H; subst; reflexivity); try (bo H s Es; inversion H; subst; reflexivity).
  destruct show; [|discriminate]. inversion H; subst; reflexivity.
Qed.
Lemma step_show : forall o e e', hides o = false -> n_show e = true -> env_step e o = Ok e' -> n_show e' = true.
Proof.
  intros o e e' N S H. destruct o; try (apply upd_any in H; destruct H as (_ & _ & -> & _); exact S); try (apply init_frame in H; destruct H as (_ & _ & -> & _); exact S); cbn [env_step] in H;
    try (inversion H; subst; exact S); try (bo H s Es; inversion H; subst; exact S).
  destruct show; [inversion H; subst; reflexivity|discriminate].
Qed.
Section runs.
Variables (A : Type) (obs : env -> A) (f : eop -> bool).
Hypothesis keeps : forall o e e', f o = false -> env_step e o = Ok e' -> obs e' = obs e.
Lemma run_obs : forall l e e', nowhere f l -> env_run e l = Ok e' -> obs e' = obs e.
Proof using keeps.
  induction l as [|o l IH]; intros e e' N H; cbn [env_run] in H; [inversion H; reflexivity|]. bo H m E.
  rewrite (IH m e'); [apply (keeps o); [apply N; left; reflexivity|exact E]|intros p Hp; apply N; right; exact Hp|exact H].
Qed.
End runs.
Definition run_water k := run_obs _ (fun e => get_prop (n_water e) k) (sets_water k) (step_water k).
Definition run_air k := run_obs _ (fun e => get_prop (n_air e) k) (sets_air k) (step_air k).
Definition run_gravity := run_obs _ n_gz sets_gravity step_gravity.
Definition run_seabed := run_obs _ n_seabed on_seabed step_seabed.
Definition run_eta := run_obs _ (fun e => wv_eta (n_waves e)) on_waves step_eta.
Lemma run_show : forall l e e', nowhere hides l -> n_show e = true -> env_run e l = Ok e' -> n_show e' = true.
Proof.
  induction l as [|o l IH]; intros e e' N S H; cbn [env_run] in H; [inversion H; subst; exact S|]. bo H m E.
  apply (IH m e'); [intros p Hp; apply N; right; exact Hp|apply (step_show o e m); [apply N; left; reflexivity|exact S|exact E]|exact H].
Qed.
Lemma get_set : forall p k x, get_prop (set_prop p k x) k = x.
Proof. intros p [] x; reflexivity. Qed.

(** ** the last call decides *)
Lemma water_last : forall l1 l2 k x e e0, nowhere (sets_water k) l2 -> env_run e0 (l1 ++ OSetWater k x :: l2) = Ok e -> get_prop (n_water e) k = x.
Proof.
  intros l1 l2 k x e e0 N H. apply run_app in H. destruct H as [m [_ H]]. cbn [env_run env_step rbind] in H.
  rewrite (run_water k l2 _ _ N H). cbn [n_water]. apply get_set.
Qed.
Lemma air_last : forall l1 l2 k x e e0, nowhere (sets_air k) l2 -> env_run e0 (l1 ++ OSetAir k x :: l2) = Ok e -> get_prop (n_air e) k = x.
Proof.
  intros l1 l2 k x e e0 N H. apply run_app in H. destruct H as [m [_ H]]. cbn [env_run env_step rbind] in H.
  rewrite (run_air k l2 _ _ N H). cbn [n_air]. apply get_set.
Qed.
Lemma gravity_last : forall l1 l2 x e e0, nowhere sets_gravity l2 -> env_run e0 (l1 ++ OSetGravity x :: l2) = Ok e -> GetGravityAcceleration e = Rabs x.
Proof.
  intros l1 l2 x e e0 N H. apply run_app in H. destruct H as [m [_ H]]. cbn [env_run env_step rbind] in H.
  unfold GetGravityAcceleration. rewrite (run_gravity l2 _ _ N H). cbn [n_gz]. apply Rabs_Ropp.
Qed.
Lemma waves_last : forall l1 l2 eta t0 d0 time e x y, nowhere hides (l1 ++ OSetWaves eta t0 d0 :: l2) -> nowhere on_waves l2 ->
  reached (l1 ++ OSetWaves eta t0 d0 :: l2 ++ [OUpdate time]) e -> GetElevation e x y NWU = eta time x y.
Proof.
  intros l1 l2 eta t0 d0 time e x y N1 N2 (lev & h2 & t & d & H).
  replace (l1 ++ OSetWaves eta t0 d0 :: l2 ++ [OUpdate time]) with ((l1 ++ OSetWaves eta t0 d0 :: l2) ++ [OUpdate time]) in H by (rewrite <- app_assoc; reflexivity).
  apply run_app in H. destruct H as [m [Hm H]].
  assert (n_show m = true) as S by (apply (run_show _ (new_env lev h2 t d) _ N1 eq_refl Hm)).
  assert (calm (n_tide m)) as C by (eapply run_calm; [apply new_calm|exact Hm]).
  cbn [env_run] in H. bo H e' E. inversion H; subst e'. destruct (update_frame _ _ _ S C E) as (_ & _ & _ & _ & _ & Ee & Et & _).
  apply run_app in Hm. destruct Hm as [m0 [_ Hm]]. cbn [env_run env_step rbind] in Hm. pose proof (run_eta l2 _ _ N2 Hm) as Ee'. cbn in Ee'.
  unfold GetElevation, wave_elevation. rewrite Ee, Ee', Et. reflexivity.
Qed.
(** ** no waves after hiding or before any wave field *)
Definition no_eta (e : env) := wv_eta (n_waves e) = None.
Lemma still_last : forall l1 l2 o e e0, (o = OShowFreeSurface false \/ exists t0 d0, o = ONoWaves t0 d0) -> nowhere on_waves l2 -> env_run e0 (l1 ++ o :: l2) = Ok e ->
  forall x y fc, GetElevation e x y fc = 0.
Proof.
  intros l1 l2 o e e0 Ho N H x y fc. apply run_app in H. destruct H as [m [_ H]]. cbn [env_run] in H. bo H m' E.
  pose proof (run_eta l2 _ _ N H) as Ee. unfold GetElevation, wave_elevation. cbn in Ee. rewrite Ee.
  destruct Ho as [->|[t0 [d0 ->]]]; cbn [env_step] in E; inversion E; reflexivity.
Qed.
Lemma still_first : forall l e lev h2 t0 d0, nowhere on_waves l -> env_run (new_env lev h2 t0 d0) l = Ok e -> forall x y fc, GetElevation e x y fc = 0.
Proof.
  intros l e lev h2 t0 d0 N H x y fc. pose proof (run_eta l _ _ N H) as Ee. unfold GetElevation, wave_elevation. cbn in Ee. rewrite Ee. reflexivity.
Qed.
(** ** depth *)
Lemma depth_reached : forall l e fc, reached l e -> GetDepth e fc = (b <<- GetBathymetry (n_seabed e) fc; Ok (- b)).
Proof.
  intros l e fc H. unfold GetDepth. rewrite (calm_height _ fc (reached_calm _ _ H)). cbn [rbind]. destruct (GetBathymetry _ _); cbn [rbind]; try reflexivity. f_equal. lra.
Qed.
Lemma bathymetry_last : forall l1 l2 b fc e e0, nowhere on_seabed l2 -> env_run e0 (l1 ++ OSetBathymetry b fc :: l2) = Ok e ->
  n_seabed e = MeanSeabed (if IsNED fc then - b else b).
Proof.
  intros l1 l2 b fc e e0 N H. apply run_app in H. destruct H as [m [_ H]]. cbn [env_run env_step] in H. bo H m' E. bo E s Es. inversion E; subst.
  pose proof (run_seabed l2 _ _ N H) as Ed. rewrite Ed. cbn. unfold SetBathymetry in Es. destruct (n_seabed m); [discriminate|]. inversion Es. reflexivity.
Qed.
Lemma bathymetry_first : forall l e lev h2 t0 d0, nowhere on_seabed l -> env_run (new_env lev h2 t0 d0) l = Ok e -> n_seabed e = MeanSeabed (- 30).
Proof. intros l e lev h2 t0 d0 N H. rewrite (run_seabed l _ _ N H). reflexivity. Qed.
Lemma show_last : forall l1 l2 show e e0, nowhere on_seabed l2 -> env_run e0 (l1 ++ OShowSeabed show :: l2) = Ok e ->
  n_seabed e = if show then MeanSeabed (- 30) else NullSeabed.
Proof.
  intros l1 l2 show e e0 N H. apply run_app in H. destruct H as [m [_ H]]. cbn [env_run env_step rbind] in H.
  rewrite (run_seabed l2 _ _ N H). destruct show; reflexivity.
Qed.
Lemma infinite_last : forall l1 l2 e e0, nowhere on_seabed l2 -> env_run e0 (l1 ++ OSetInfiniteDepth :: l2) = Ok e -> n_seabed e = NullSeabed.
Proof.
  intros l1 l2 e e0 N H. apply run_app in H. destruct H as [m [_ H]]. cbn [env_run env_step rbind] in H. rewrite (run_seabed l2 _ _ N H). reflexivity.
Qed.
(** ** stepping never fails after an initialisation *)
Definition agreed (e : env) : Prop := n_show e = false \/ wv_inf (n_waves e) = GetInfiniteDepth (n_seabed e).
Lemma depth_ok : forall e fc, calm (n_tide e) -> GetInfiniteDepth (n_seabed e) = false -> exists d, GetDepth e fc = Ok d.
Proof.
  intros e fc C I. unfold GetDepth. rewrite (calm_height _ _ C). destruct (n_seabed e); [discriminate|]. cbn [rbind GetBathymetry]. eauto.
Qed.
Lemma init_ok : forall e, calm (n_tide e) -> exists e', env_step e OInitialize = Ok e' /\ agreed e'.
Proof.
  intros e C. cbn [env_step]. destruct (n_show e) eqn:S; [|exists e; split; [reflexivity|left; exact S]].
  unfold waves_init. cbv zeta. destruct (GetInfiniteDepth (n_seabed e)) eqn:I.
  - cbn [rbind]. eexists; split; [reflexivity|]. right. cbn. rewrite I. reflexivity.
  - destruct (depth_ok e NWU C I) as [d Ed]. rewrite Ed. cbn [rbind]. eexists; split; [reflexivity|]. right. cbn. rewrite I. reflexivity.
Qed.
Lemma update_ok : forall e time, calm (n_tide e) -> agreed e -> exists e', env_step e (OUpdate time) = Ok e' /\ agreed e'.
Proof.
  intros e time C G. cbn [env_step]. destruct (n_show e) eqn:S; [|exists e; split; [reflexivity|left; exact S]].
  destruct G as [G|G]; [congruence|]. destruct (calm_update _ time C) as [t' [Et C']]. rewrite Et. cbn [rbind].
  unfold waves_update. cbn [n_waves set_tide]. rewrite G. destruct (GetInfiniteDepth (n_seabed e)) eqn:I.
  - cbn [rbind]. eexists; split; [reflexivity|]. right. cbn. rewrite I. reflexivity.
  - destruct (depth_ok (set_tide e t') NWU C' I) as [d Ed]. rewrite Ed. cbn [rbind]. eexists; split; [reflexivity|]. right. cbn. rewrite I. reflexivity.
Qed.
Lemma steps_ok : forall l e, calm (n_tide e) -> agreed e -> (forall o, In o l -> stepping o = true) -> exists e', env_run e l = Ok e'.
Proof.
  induction l as [|o l IH]; intros e C G P; [exists e; reflexivity|]. cbn [env_run].
  assert (exists e', env_step e o = Ok e' /\ agreed e') as [e' [E G']].
  { pose proof (P o (or_introl eq_refl)) as Po. destruct o; try discriminate; [apply update_ok; assumption|apply init_ok; assumption|exists e; split; [reflexivity|exact G]]. }
  rewrite E. cbn [rbind]. apply IH; [eapply step_calm; eassumption|exact G'|intros p Hp; apply P; right; exact Hp].
Qed.

Lemma initialised : forall l e, reached (l ++ [OInitialize]) e -> nowhere hides l -> n_show e = true /\ wv_inf (n_waves e) = GetInfiniteDepth (n_seabed e).
Proof.
  intros l e (lev & h2 & t0 & d0 & H) N. apply run_app in H. destruct H as [m [Hm H]]. pose proof (run_show _ (new_env lev h2 t0 d0) _ N eq_refl Hm) as S.
  cbn [env_run] in H. bo H e' E. inversion H; subst e'. destruct (init_frame _ _ E) as (_ & _ & Sh & _). split; [congruence|].
  cbn [env_step] in E. rewrite S in E. unfold waves_init in E. bo E d Ed. inversion E. reflexivity.
Qed.
Lemma hidden_update : forall e time, calm (n_tide e) -> n_show e = true -> wv_inf (n_waves e) = false -> env_run e [OShowSeabed false; OUpdate time] = Fails.
Proof.
  intros e time C S I. cbn [env_run env_step rbind set_seabed n_show n_tide]. rewrite S. destruct (calm_update _ time C) as [t' [Et C']]. rewrite Et. cbn [rbind].
  unfold waves_update. cbn [set_tide n_waves set_seabed]. rewrite I. unfold GetDepth. cbn [n_tide n_seabed set_seabed]. rewrite (calm_height _ _ C'). reflexivity.
Qed.
