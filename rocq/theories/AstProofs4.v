(** Proofs for the visual assets: assets of an object, mesh writer, loader. *)
From Coq Require Import Reals List ZArith Bool String Lra Lia DecimalString DecimalZ DecimalFacts.
From Verif Require Import GeoModel GeoSpec SeaModel AstModel AstSpec.
Import ListNotations.
Open Scope R_scope.

(** ** Assets *)
Lemma erase_count : forall (A : Type) (dec : forall x y : A, {x = y} + {x <> y}) x l,
  match erase_first dec x l with
  | None => count_occ dec l x = 0%nat
  | Some l' => forall y, count_occ dec l y = (count_occ dec l' y + if dec x y then 1 else 0)%nat
  end.
Proof.
  intros A dec x. induction l as [|a l IH]; cbn [erase_first count_occ]; [reflexivity|].
  destruct (dec x a) as [<-|N].
  - intro y. destruct (dec x y); lia.
  - destruct (erase_first dec x l) as [l'|]; cbn [option_map].
    + intro y. cbn [count_occ]. destruct (dec a y); rewrite (IH y); lia.
    + destruct (dec a x) as [E|_]; [exfalso; apply N; symmetry; exact E|exact IH].
Qed.
Definition counted (w : owner) (l : list asset_op) : Prop :=
  (forall d, Z.of_nat (count_occ drawn_dec (o_chrono w) d) = shown d l) /\ (forall x, Z.of_nat (count_occ Nat.eq_dec (o_assets w) x) = shown (DAsset x) l).
Lemma shown_app : forall d l o, shown d (l ++ [o]) = shown_step d (shown d l) o.
Proof. intros d l o. unfold shown. rewrite fold_left_app. reflexivity. Qed.
Lemma asset_app : forall a b w, asset_run (a ++ b) w = (w' <<- asset_run a w; asset_run b w').
Proof. induction a as [|o a IH]; intros b w; [reflexivity|]. cbn [app asset_run]. destruct (asset_do o w); cbn [rbind]; [apply IH|reflexivity..]. Qed.
Lemma asset_step : forall w l o, counted w l ->
  match asset_do o w with
  | Ok w' => counted w' (l ++ [o])
  | Undef => exists x, o = RemoveAsset x /\ shown (DAsset x) l = 0%Z
  | _ => False
  end /\ (forall x, o = RemoveAsset x -> (0 < shown (DAsset x) l)%Z -> exists w', asset_do o w = Ok w').
Proof.
  intros [b c s m a d] l o [Hd Ha]. cbn [o_chrono o_assets] in Hd, Ha.
  destruct o as [x|x|x|x|x|x| |x]; cbn [asset_do];
    try (split; [split; [intro e; rewrite shown_app; cbn [shown_step o_chrono]; rewrite <- Hd, count_occ_app; cbn [count_occ]; destruct (drawn_dec _ e); lia
                        |intro y; rewrite shown_app; cbn [shown_step o_assets]; rewrite <- Ha; try rewrite count_occ_app; cbn [count_occ];
                         destruct (drawn_dec _ (DAsset y)) as [E|E]; try discriminate E; try (destruct (Nat.eq_dec _ y) as [F|F]; [|congruence || (exfalso; apply F; congruence)]); try lia]
                |intros z E; discriminate E]).
  - destruct (Nat.eq_dec x y) as [F|F]; [exfalso; apply E; congruence|lia].
  - pose proof (erase_count nat Nat.eq_dec x a) as P. pose proof (erase_count drawn drawn_dec (DAsset x) d) as Q.
    destruct (erase_first Nat.eq_dec x a) as [a'|]; cbn [of_option rbind].
    + destruct (erase_first drawn_dec (DAsset x) d) as [d'|]; cbn [of_option rbind].
      * split; [split|intros; eexists; reflexivity].
        -- intro e. rewrite shown_app. cbn [shown_step o_chrono]. rewrite <- Hd, (Q e). destruct (drawn_dec (DAsset x) e); lia.
        -- intro y. rewrite shown_app. cbn [shown_step o_assets]. rewrite <- Ha, (P y).
           destruct (Nat.eq_dec x y) as [F|F]; destruct (drawn_dec (DAsset x) (DAsset y)) as [E|E]; try lia; exfalso; congruence.
      * assert (Z0 : shown (DAsset x) l = 0%Z) by (rewrite <- Hd, Q; reflexivity). split; [exists x; split; [reflexivity|exact Z0]|].
        intros z [= <-] Hz. lia.
    + assert (Z0 : shown (DAsset x) l = 0%Z) by (rewrite <- Ha, P; reflexivity). split; [exists x; split; [reflexivity|exact Z0]|].
      intros z [= <-] Hz. lia.
  - split; [split; intro; rewrite shown_app; reflexivity|intros z E; discriminate E].
Qed.
Lemma asset_history : forall l, match asset_run l new_owner with
  | Ok w => counted w l /\ (forall a x b, l = a ++ RemoveAsset x :: b -> (0 < shown (DAsset x) a)%Z)
  | Undef => exists a x b, l = a ++ RemoveAsset x :: b /\ shown (DAsset x) a = 0%Z
  | _ => False end.
Proof.
  induction l as [|o l IH] using rev_ind.
  - cbn [asset_run]. split; [split; intro; reflexivity|intros [|? a] x b E; discriminate E].
  - rewrite asset_app. destruct (asset_run l new_owner) as [w| | | |]; cbn [rbind asset_run]; try contradiction.
    + destruct IH as [I P]. destruct (asset_step w l o I) as [T U]. destruct (asset_do o w) as [w'| | | |]; cbn [rbind]; try contradiction.
      * split; [exact T|]. intros a x b E. destruct b as [|q b] using rev_ind.
        -- apply app_inj_tail in E. destruct E as [-> ->].
           destruct T as [Td _]. specialize (Td (DAsset x)). rewrite shown_app in Td. cbn [shown_step] in Td. destruct (drawn_dec (DAsset x) (DAsset x)); [lia|congruence].
        -- clear IHb. rewrite app_comm_cons, app_assoc in E. apply app_inj_tail in E. destruct E as [-> ->]. apply (P a x b). reflexivity.
      * destruct T as (x & -> & Z0). exists l, x, []. split; [reflexivity|exact Z0].
    + destruct IH as (a & x & b & -> & Z0). exists a, x, (b ++ [o])%list. split; [rewrite <- app_assoc; reflexivity|exact Z0].
Qed.

(** ** Mesh writer *)
Lemma to_string_inj : forall a b, to_string a = to_string b -> a = b.
Proof.
  intros a b E. unfold to_string in E.
  pose proof (NilZero.isi (Z.to_int a)) as A. pose proof (NilZero.isi (Z.to_int b)) as B. 
  assert (Na : forall z, Z.to_int z <> Decimal.Pos Decimal.Nil /\ Z.to_int z <> Decimal.Neg Decimal.Nil).
  { intro z. split; destruct z as [|p|p]; cbn [Z.to_int]; try discriminate; intro F; injection F as F; exact (DecimalPos.Unsigned.to_uint_nonnil p F). }
  destruct (Na a) as [A1 A2]. destruct (Na b) as [B1 B2]. specialize (A A1 A2). specialize (B B1 B2). rewrite E in A. rewrite A in B. injection B as B.
  apply to_int_inj. exact B.
Qed.
Lemma append_left : forall a b c : string, (a ++ b)%string = (a ++ c)%string -> b = c.
Proof. induction a as [|x a IH]; intros b c E; [exact E|]. injection E as E. apply IH, E. Qed.
Lemma append_length : forall a b : string, String.length (a ++ b) = (String.length a + String.length b)%nat.
Proof. induction a as [|x a IH]; intro b; [reflexivity|]. cbn. rewrite IH. reflexivity. Qed.
Lemma append_right : forall a b c : string, (a ++ c)%string = (b ++ c)%string -> a = b.
Proof.
  induction a as [|x a IH]; intros b c E; destruct b as [|y b]; [reflexivity| | |].
  - exfalso. apply (f_equal String.length) in E. cbn in E. rewrite append_length in E. lia.
  - exfalso. apply (f_equal String.length) in E. cbn in E. rewrite append_length in E. lia.
  - injection E as -> E. f_equal. apply (IH b c E).
Qed.
Definition numbered (base ext : string) (z : Z) : string := (base ++ to_string z ++ ext)%string.
Lemma numbered_inj : forall b e x y, numbered b e x = numbered b e y -> x = y.
Proof. intros b e x y E. apply append_left, append_right, to_string_inj in E. exact E. Qed.
Lemma written : forall (M : Type) (ms : list M) w,
  let w' := mw_run (map MWrite ms) w in
  mw_base w' = mw_base w /\ mw_ext w' = mw_ext w /\ mw_counter w' = (mw_counter w + Z.of_nat (List.length ms))%Z /\
  (forall i m, nth_error ms i = Some m -> content (mw_files w') (numbered (mw_base w) (mw_ext w) (mw_counter w + Z.of_nat i)) = Some m) /\
  (forall name, (forall i, (i < List.length ms)%nat -> name <> numbered (mw_base w) (mw_ext w) (mw_counter w + Z.of_nat i)) -> content (mw_files w') name = content (mw_files w) name).
Proof.
  intros M ms. induction ms as [|m ms IH] using rev_ind; intros w w'.
  - subst w'. cbn. split; [reflexivity|]. split; [reflexivity|]. split; [lia|]. split; [intros [|i] m E; discriminate E|reflexivity].
  - subst w'. unfold mw_run. rewrite map_app, fold_left_app. cbn [map fold_left]. fold (mw_run (map MWrite ms) w).
    destruct (IH w) as (B & E & C & F & G). set (w1 := mw_run (map MWrite ms) w) in *. cbn [mw_do mw_base mw_ext mw_counter mw_files].
    unfold GetFilename. rewrite B, E, C. rewrite app_length. cbn [List.length].
    split; [reflexivity|]. split; [reflexivity|]. split; [lia|]. split.
    + intros i x Hx. cbn [content].
      destruct (string_dec _ _) as [D|D].
      * apply numbered_inj in D. assert (Ei : i = List.length ms) by lia. subst i. rewrite nth_error_app2 in Hx by lia. rewrite Nat.sub_diag in Hx. exact Hx.
      * apply F. rewrite nth_error_app1 in Hx; [exact Hx|].
        assert (Li : (i < List.length (ms ++ [m]))%nat) by (apply nth_error_Some; rewrite Hx; discriminate). rewrite app_length in Li. cbn in Li.
        destruct (Nat.eq_dec i (List.length ms)) as [->|N]; [exfalso; apply D; reflexivity|lia].
    + intros name H. cbn [content]. destruct (string_dec _ _) as [D|D].
      * exfalso. apply (H (List.length ms)); [lia|unfold numbered; congruence].
      * apply G. intros j Hj. apply H. lia.
Qed.

Lemma in_force : forall (M : Type) (l : list (mw_op M)), let w := mw_run l (new_mwriter M) in mw_base w = last_base l /\ mw_ext w = last_type l /\ mw_counter w = last_number l.
Proof.
  intros M l. induction l as [|o l IH] using rev_ind; [repeat split|]. unfold mw_run, last_base, last_type, last_number in *. rewrite !fold_left_app. cbn [fold_left].
  destruct IH as (A & B & C). destruct o; cbn [mw_do mw_base mw_ext mw_counter]; rewrite ?A, ?B, ?C; repeat split; reflexivity.
Qed.
(** ** Loader *)
Lemma collected : forall (A : Type) (f : nat -> res A) g n i, (forall k, (i <= k < i + n)%nat -> f k = Ok (g k)) -> rcollect f i n = Ok (map g (seq i n)).
Proof.
  intros A f g n. induction n as [|n IH]; intros i H; [reflexivity|]. cbn [rcollect seq map]. rewrite (H i) by lia. cbn [rbind].
  rewrite (IH (S i)) by (intros k Hk; apply H; lia). reflexivity.
Qed.
Lemma vat_nth : forall (l : list R) i, (i < List.length l)%nat -> vat l i = Ok (nth i l 0).
Proof. intros l i Hi. unfold vat. rewrite (nth_error_nth' l 0 Hi). reflexivity. Qed.
Lemma rows_loaded : forall j f la le an cx cy cn,
  j "frontal_area"%string = Some (JNumber f) -> j "lateral_area"%string = Some (JNumber la) -> j "length"%string = Some (JNumber le) ->
  j "angles"%string = Some (JNumbers an) -> j "cx"%string = Some (JNumbers cx) -> j "cy"%string = Some (JNumbers cy) -> j "cn"%string = Some (JNumbers cn) ->
  (List.length an <= List.length cx)%nat -> (List.length an <= List.length cy)%nat -> (List.length an <= List.length cn)%nat ->
  LoadPolar j = Ok (f, la, le, map (fun i => (nth i an 0, V (nth i cx 0) (nth i cy 0) (nth i cn 0))) (seq 0 (List.length an))).
Proof.
  intros j f la le an cx cy cn E1 E2 E3 E4 E5 E6 E7 H1 H2 H3. unfold LoadPolar, get_number, get_numbers. rewrite E1, E2, E3, E4, E5, E6, E7. cbn [rbind].
  rewrite (collected _ _ (fun i => (nth i an 0, V (nth i cx 0) (nth i cy 0) (nth i cn 0)))); [reflexivity|].
  intros k Hk. rewrite !vat_nth by lia. reflexivity.
Qed.
