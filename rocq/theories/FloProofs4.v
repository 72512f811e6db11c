(** Proofs for C73: the classes of polar tables. *)
From Coq Require Import Reals List Bool Lra Lia ZArith Permutation.
From Verif Require Import WavModel SeaModel FloModel WavProofs3 GeoModel GeoSpec GeoProofs GeoProofs2 BodyModel BodySpec FloSpec FloProofs3.
Import ListNotations.
Open Scope R_scope.

Definition kept (l : list (R * vec)) : res (list (R * vec)) :=
  let min_angle := first_angle l in
  l <<- (if (near min_angle 0 && near (last_angle l) PI)%bool then complete (fun a => 2 * PI - a) l
         else if (near min_angle (- PI) && near (last_angle l) 0)%bool then complete (fun a => - a) l else Ok l);
  Ok (if ((near min_angle 0 && near (last_angle l) (2 * PI)) || (near min_angle (- PI) && near (last_angle l) PI))%bool then removelast l else l).
Lemma rad_eq p : match pf_unit p with DEG => map (fun r => (fst r * WavModel.DEG2RAD, snd r)) (pf_rows p) | RAD => pf_rows p end = rad_rows p.
Proof.
  unfold rad_rows, radians. destruct (pf_unit p).
  - induction (pf_rows p) as [|[a c] l IH]; [reflexivity|]. cbn [map fst snd]. rewrite <- IH. reflexivity.
  - apply map_ext. intros r. f_equal. unfold WavModel.DEG2RAD. field.
Qed.
Lemma maps_eq fc dc l :
  map (fun r : R * vec => (Normalize_0_2PI (fst r), snd r))
    (match dc with COMEFROM => map (fun r : R * vec => (fst r + PI, snd r)) (match fc with NED => map (fun r => (- fst r, mirror_coef (snd r))) l | NWU => l end)
     | GOTO => match fc with NED => map (fun r => (- fst r, mirror_coef (snd r))) l | NWU => l end end) = map (place fc dc) l.
Proof.
  destruct fc, dc; rewrite ?map_map; apply map_ext; intros [a c]; unfold place, row_direction, row_coef, convert, mirror_coef; cbn [fst snd]; rewrite ?Rplus_0_r; reflexivity.
Qed.
Lemma read_finish p : ReadTable p = match rad_rows p with [] => Undef | _ => k <<- kept (rad_rows p); finish (map (place (pf_fc p) (pf_dc p)) k) end.
Proof.
  unfold ReadTable. rewrite rad_eq. cbv zeta. destruct (rad_rows p) as [|[a c] l] eqn:E; [reflexivity|]. unfold kept. cbv zeta. cbn [first_angle].
  destruct (if (near a 0 && near (last_angle ((a, c) :: l)) PI)%bool then _ else _) as [x| | | |]; cbn [rbind]; try reflexivity.
  rewrite <- maps_eq. unfold finish. reflexivity.
Qed.
Lemma near_far a b : 1 / 10 <= Rabs (a - b) -> near a b = false.
Proof. intros. unfold near. destruct (Rlt_dec _ _); [lra|reflexivity]. Qed.
Lemma near_same a : near a a = true.
Proof. unfold near. replace (a - a) with 0 by ring. rewrite Rabs_R0. destruct (Rlt_dec _ _); [reflexivity|lra]. Qed.
Lemma far_l a b : a + 1 / 10 <= b -> 1 / 10 <= Rabs (a - b).
Proof. intros. rewrite Rabs_left1; lra. Qed.
Lemma far_r a b : b + 1 / 10 <= a -> 1 / 10 <= Rabs (a - b).
Proof. intros. rewrite Rabs_pos_eq; lra. Qed.
Ltac far := apply near_far; pose proof PI_RGT_0; first [assumption | apply far_l; lra | apply far_r; lra].
Lemma pi3 : 3 < PI.
Proof. pose proof PI2_3_2. pose proof PI_RGT_0. lra. Qed.
Lemma last_eq l : last_angle l = final_angle l.
Proof. reflexivity. Qed.
Lemma final_snoc l a c : final_angle (l ++ [(a, c)]) = a.
Proof. unfold final_angle. rewrite last_last. reflexivity. Qed.
Lemma kept_all s l : starts_at s -> all_round s l -> kept l = Ok l.
Proof.
  intros S (INC & NE & F & L & H). unfold kept. cbv zeta. rewrite F, last_eq. pose proof pi3 as P3. destruct S as [->| ->].
  - rewrite Rplus_0_l in *. rewrite (near_far (final_angle l) PI H). rewrite !andb_false_r. replace (near 0 (- PI)) with false by (symmetry; far). cbn [andb rbind]. rewrite last_eq. replace (near (final_angle l) (2 * PI)) with false by (symmetry; far). rewrite near_same. reflexivity.
  - replace (near (- PI) 0) with false by (symmetry; far). replace (- PI + PI) with 0 in H by ring. rewrite (near_far _ _ H). rewrite near_same. cbn [andb rbind orb]. rewrite last_eq. replace (near (final_angle l) PI) with false by (symmetry; far). reflexivity.
Qed.
Lemma first_app K r : K <> [] -> first_angle (K ++ [r]) = first_angle K.
Proof. destruct K as [|[a c] K]; [congruence|reflexivity]. Qed.
Lemma kept_closed s K l : starts_at s -> closed_round s K l -> kept l = Ok K.
Proof.
  intros S (c & E & INC & NE & F). unfold kept. cbv zeta. subst l. rewrite first_app, F, last_eq, final_snoc by exact NE. pose proof pi3 as P3. destruct S as [->| ->].
  - replace (near (0 + 2 * PI) PI) with false by (symmetry; far). replace (near 0 (- PI)) with false by (symmetry; far). rewrite andb_false_r. cbn [andb rbind]. rewrite last_eq, final_snoc. rewrite Rplus_0_l, !near_same. cbn [andb orb]. rewrite removelast_last. reflexivity.
  - replace (near (- PI) 0) with false by (symmetry; far). replace (- PI + 2 * PI) with PI by ring. replace (near PI 0) with false by (symmetry; far). cbn [andb rbind]. rewrite andb_false_r. cbn [rbind]. rewrite last_eq, final_snoc. rewrite !near_same. cbn [andb orb]. rewrite removelast_last. reflexivity.
Qed.
Definition half_keep (s : R) (mid l : list (R * vec)) : list (R * vec) := l ++ map (fun r => (2 * (s + PI) - fst r, other_side (snd r))) (rev mid).
Lemma half_last s c0 cn mid l : half_round s c0 cn mid l -> let x := final_angle (half_keep s mid l) in s + PI <= x <= s + 2 * PI - 1 / 10.
Proof.
  intros (E & INC & H). cbv zeta. pose proof pi3 as P3. unfold half_keep. destruct mid as [|[a c] mid].
  - cbn. rewrite app_nil_r. subst l. change ((s, c0) :: [] ++ [(s + PI, cn)]) with ([(s, c0)] ++ [(s + PI, cn)]). rewrite final_snoc. lra.
  - cbn [rev]. rewrite map_app. cbn [map fst snd]. rewrite app_assoc, final_snoc. pose proof (H (a, c) (or_introl eq_refl)) as A. cbn in A.
    assert (a < s + PI). { subst l. pose proof (inc_tail _ _ INC) as I2. apply (inc_head _ _ I2 (s + PI, cn)). cbn. apply in_or_app. right. left. reflexivity. } lra.
Qed.
Lemma complete_half f s c0 cn mid l : l = (s, c0) :: mid ++ [(s + PI, cn)] -> (forall a, f a = 2 * (s + PI) - a) -> complete f l = Ok (half_keep s mid l).
Proof.
  intros E F. unfold complete. subst l. destruct (Nat.leb _ 1) eqn:LB; [exfalso; apply PeanoNat.Nat.leb_le in LB; cbn in LB; rewrite app_length in LB; cbn in LB; lia|].
  unfold half_keep. cbn [tl]. rewrite removelast_last. f_equal. f_equal. apply map_ext. intros r. rewrite F. reflexivity.
Qed.
Lemma kept_half s c0 cn mid l : starts_at s -> half_round s c0 cn mid l -> kept l = Ok (half_keep s mid l).
Proof.
  intros S HR. pose proof (half_last _ _ _ _ _ HR) as HL. cbv zeta in HL. destruct HR as (E & INC & H). unfold kept. cbv zeta. pose proof pi3 as P3.
  assert (F : first_angle l = s) by (subst l; reflexivity). assert (LA : last_angle l = s + PI). { rewrite last_eq. subst l. change ((s, c0) :: mid ++ [(s + PI, cn)]) with (((s, c0) :: mid) ++ [(s + PI, cn)]). apply final_snoc. }
  rewrite F, LA. destruct S as [-> | ->].
  - rewrite Rplus_0_l, !near_same. cbn [andb]. rewrite (complete_half (fun a => 2 * PI - a) 0 c0 cn mid l E) by (intros; ring). cbn [rbind]. rewrite last_eq. replace (near (final_angle _) (2 * PI)) with false by (symmetry; far). replace (near 0 (- PI)) with false by (symmetry; far). reflexivity.
  - replace (near (- PI) 0) with false by (symmetry; far). replace (- PI + PI) with 0 by ring. rewrite !near_same. cbn [andb]. rewrite (complete_half (fun a => - a) (- PI) c0 cn mid l E) by (intros; ring). cbn [rbind]. rewrite last_eq. replace (near (final_angle _) PI) with false by (symmetry; far). reflexivity.
Qed.
(** K is increasing within one turn *)
Lemma inc_app_l l l' : increasing (l ++ l') -> increasing l.
Proof. induction l as [|r l IH]; [constructor|]. intros H. cbn in H. apply inc_cons; [apply IH; eapply inc_tail; eauto|]. intros x I. apply (inc_head _ _ H). apply in_or_app. auto. Qed.
Lemma inc_app_lt l l' x y : increasing (l ++ l') -> In x l -> In y l' -> fst x < fst y.
Proof.
  induction l as [|r l IH]; intros H A B; [destruct A|]. cbn in H. destruct A as [<-|A]; [apply (inc_head _ _ H); apply in_or_app; auto|]. apply IH; auto. eapply inc_tail; eauto.
Qed.
Lemma final_in l : l <> [] -> In (last l (0, origin)) l.
Proof. intros H. destruct (exists_last H) as [l' [a E]]. subst l. rewrite last_last. apply in_or_app. right. left. reflexivity. Qed.
Lemma closed_turn s K l : closed_round s K l -> increasing K /\ K <> [] /\ final_angle K - first_angle K < 2 * PI.
Proof.
  intros (c & E & INC & NE & F). subst l. split; [eapply inc_app_l; eauto|]. split; [exact NE|]. rewrite F. pose proof (inc_app_lt _ _ _ (s + 2 * PI, c) INC (final_in K NE) (or_introl eq_refl)) as H. cbn in H. unfold final_angle. lra.
Qed.
Lemma all_turn s l : all_round s l -> increasing l /\ l <> [] /\ final_angle l - first_angle l < 2 * PI.
Proof. intros (INC & NE & F & L & H). split; [exact INC|]. split; [exact NE|]. rewrite F. lra. Qed.
Lemma inc_mirror k l : increasing l -> increasing (map (fun r => (k - fst r, other_side (snd r))) (rev l)).
Proof.
  induction l as [|r l IH]; intros H; [constructor|]. cbn [rev]. rewrite map_app. apply inc_app; [apply IH; eapply inc_tail; eauto|constructor|].
  intros x y A [<-|[]]. apply in_map_iff in A. destruct A as [z [<- A]]. apply in_rev in A. pose proof (inc_head _ _ H _ A). cbn. lra.
Qed.
Lemma half_turn s c0 cn mid l : half_round s c0 cn mid l -> let K := half_keep s mid l in increasing K /\ K <> [] /\ final_angle K - first_angle K < 2 * PI.
Proof.
  intros HR. pose proof (half_last _ _ _ _ _ HR) as HL. cbv zeta in *. destruct HR as (E & INC & H).
  assert (IM : increasing mid). { subst l. apply inc_tail in INC. eapply inc_app_l; eauto. }
  assert (LT : forall r, In r mid -> fst r < s + PI). { intros r I. subst l. apply inc_tail in INC. apply (inc_app_lt _ _ r (s + PI, cn) INC I). left. reflexivity. }
  split; [|split].
  - unfold half_keep. apply inc_app; [exact INC|apply inc_mirror; exact IM|]. intros x y A B. apply in_map_iff in B. destruct B as [z [<- B]]. apply in_rev in B. specialize (LT z B). cbn [fst].
    assert (fst x <= s + PI). { pose proof PI_RGT_0. subst l. destruct A as [<-|A]; [cbn; lra|]. apply in_app_or in A. destruct A as [A|[<-|[]]]; [|cbn; lra]. apply inc_tail in INC. pose proof (inc_app_lt _ _ x (s + PI, cn) INC A (or_introl eq_refl)) as Q. cbn in Q. lra. } lra.
  - unfold half_keep. subst l. discriminate.
  - replace (first_angle (half_keep s mid l)) with s by (unfold half_keep; subst l; reflexivity). pose proof PI_RGT_0. lra.
Qed.
(** reading a table of one of the classes *)
Lemma read_kept p K : rad_rows p <> [] -> kept (rad_rows p) = Ok K -> increasing K /\ K <> [] /\ final_angle K - first_angle K < 2 * PI ->
  exists table, ReadTable p = Ok table /\ good_table (pf_fc p) (pf_dc p) K table.
Proof.
  intros NE KE (INC & N & T). destruct (finish_good (pf_fc p) (pf_dc p) K INC N T) as [t [A B]]. exists t. split; [|exact B]. rewrite read_finish. destruct (rad_rows p); [congruence|]. rewrite KE. exact A.
Qed.
Lemma read_all p s : starts_at s -> all_round s (rad_rows p) -> exists table, ReadTable p = Ok table /\ good_table (pf_fc p) (pf_dc p) (rad_rows p) table.
Proof. intros S A. apply read_kept; [apply A|eapply kept_all; eauto|eapply all_turn; eauto]. Qed.
Lemma read_closed p s K : starts_at s -> closed_round s K (rad_rows p) -> exists table, ReadTable p = Ok table /\ good_table (pf_fc p) (pf_dc p) K table.
Proof. intros S A. apply read_kept; [|eapply kept_closed; eauto|eapply closed_turn; eauto]. destruct A as (c & E & _ & _ & _). rewrite E. destruct K; discriminate. Qed.
Lemma read_half p s c0 cn mid : starts_at s -> half_round s c0 cn mid (rad_rows p) -> exists table, ReadTable p = Ok table /\ good_table (pf_fc p) (pf_dc p) (half_keep s mid (rad_rows p)) table.
Proof. intros S A. apply read_kept; [|eapply kept_half; eauto|eapply half_turn; eauto]. destruct A as (E & _ & _). rewrite E. discriminate. Qed.
Lemma half_zero p s c0 cn mid : starts_at s -> half_round s c0 cn mid (rad_rows p) -> exists a c, In (a, c) (half_keep s mid (rad_rows p)) /\ congruent (row_direction (pf_fc p) (pf_dc p) a) 0.
Proof.
  intros S (E & _ & _). assert (I0 : In (s, c0) (half_keep s mid (rad_rows p))) by (unfold half_keep; apply in_or_app; left; rewrite E; left; reflexivity).
  assert (I1 : In (s + PI, cn) (half_keep s mid (rad_rows p))) by (unfold half_keep; apply in_or_app; left; rewrite E; right; apply in_or_app; right; left; reflexivity).
  unfold row_direction, congruent. destruct S as [-> | ->], (pf_fc p), (pf_dc p).
  - exists 0, c0. split; [exact I0|]. exists 0%Z. lra.
  - exists (0 + PI), cn. split; [exact I1|]. exists 1%Z. lra.
  - exists 0, c0. split; [exact I0|]. exists 0%Z. lra.
  - exists (0 + PI), cn. split; [exact I1|]. exists 0%Z. lra.
  - exists (- PI + PI), cn. split; [exact I1|]. exists 0%Z. lra.
  - exists (- PI), c0. split; [exact I0|]. exists 0%Z. lra.
  - exists (- PI + PI), cn. split; [exact I1|]. exists 0%Z. lra.
  - exists (- PI), c0. split; [exact I0|]. exists 1%Z. lra.
Qed.
Lemma half_mirror s c0 cn mid l : starts_at s -> half_round s c0 cn mid l -> other_side c0 = c0 -> other_side cn = cn ->
  forall a c, In (a, c) (half_keep s mid l) -> exists a', In (a', mirror_coef c) (half_keep s mid l) /\ congruent a' (- a).
Proof.
  intros S (E & _ & _) M0 MN a c I. unfold half_keep in *.
  assert (OO : forall c, other_side (other_side c) = c) by (intros [x y z]; unfold other_side; cbn [vx vy vz]; rewrite !Ropp_involutive; reflexivity).
  assert (SS : exists k : Z, 2 * s = 2 * PI * IZR k) by (destruct S as [-> | ->]; [exists 0%Z|exists (-1)%Z]; lra). destruct SS as [k K].
  change (mirror_coef c) with (other_side c). apply in_app_or in I. destruct I as [I|I].
  - rewrite E in I. destruct I as [I|I].
    + injection I as <- <-. exists s. split; [apply in_or_app; left; rewrite E, M0; left; reflexivity|]. exists k. lra.
    + apply in_app_or in I. destruct I as [I|[I|[]]].
      * exists (2 * (s + PI) - a). split; [apply in_or_app; right; apply in_map_iff; exists (a, c); split; [reflexivity|apply in_rev; rewrite rev_involutive; exact I]|]. exists (k + 1)%Z. rewrite plus_IZR. lra.
      * injection I as <- <-. exists (s + PI). split; [apply in_or_app; left; rewrite E, MN; right; apply in_or_app; right; left; reflexivity|]. exists (k + 1)%Z. rewrite plus_IZR. lra.
  - apply in_map_iff in I. destruct I as [[a1 c1] [EQ I]]. cbn in EQ. injection EQ as <- <-. apply in_rev in I. exists a1. rewrite OO. split; [apply in_or_app; left; rewrite E; right; apply in_or_app; left; exact I|]. exists (k + 1)%Z. rewrite plus_IZR. lra.
Qed.
