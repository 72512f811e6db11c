From Coq Require Import Reals List String Bool Lra Lia.
From Verif Require Import FunModel FunSpec FunProofs FunProofs2 PolModel PolSpec.
Import ListNotations.
Open Scope R_scope.

(** ** Totals *)
Lemma total_app : forall f a b, total f (a ++ b)%list = total f a + total f b.
Proof. intros f a b. unfold total. induction a as [|t a IH]; cbn; [ring|]. rewrite IH. ring. Qed.
Lemma total_one : forall f t, total f [t] = f t.
Proof. intros f t. unfold total. cbn. ring. Qed.
Lemma terms_app : forall a b, terms (a ++ b)%list = (terms a ++ terms b)%list.
Proof. induction a as [|[v p|q x] a IH]; intros b; cbn; [reflexivity|now rewrite IH|apply IH]. Qed.
Lemma asked_app : forall a b, asked (a ++ b)%list = (asked a ++ asked b)%list.
Proof. induction a as [|[v p|q x] a IH]; intros b; cbn; [reflexivity|apply IH|now rewrite IH]. Qed.

(** ** The expression built *)
Lemma monomial_val : forall v p x, (1 <= p)%nat ->
  vy (monomial v p) x = v * x ^ p /\ vd (monomial v p) x = v * (INR p * x ^ (p - 1)) /\
  (x <> 0 \/ (2 <= p)%nat -> vdd (monomial v p) x = v * (INR p * INR (p - 1) * x ^ (p - 2))).
Proof.
  intros v p x P. unfold vy, vd, vdd, monomial. cbn [val3 binF unF fst snd].
  assert (E : INR p - 1 = INR (p - 1)) by (rewrite minus_INR by exact P; reflexivity). rewrite E, !c_pow_N. split; [reflexivity|]. split; [ring|].
  intros G. destruct (Nat.eq_dec p 1) as [->|N].
  - cbn [INR Nat.sub]. ring.
  - assert (F : INR p - 2 = INR (p - 2)) by (rewrite minus_INR by lia; reflexivity). rewrite F, c_pow_N. ring.
Qed.
Definition right (k : R) (l : list (R * nat)) (e : expr) : Prop := forall x, vy e x = polynomial k l x /\ vd e x = polynomial' l x /\ (second_defined l x -> vdd e x = polynomial'' l x).
Lemma right_add : forall k l e v p, right k l e -> (1 <= p)%nat -> right k (l ++ [(v, p)])%list (Bin BAdd e (monomial v p)).
Proof.
  intros k l e v p H P x. destruct (H x) as (A & B & C). destruct (monomial_val v p x P) as (A' & B' & C').
  assert (V : val3 (Bin BAdd e (monomial v p)) x = binF BAdd (val3 e x) (val3 (monomial v p) x)) by reflexivity. unfold vy, vd, vdd in *. rewrite V. cbn [binF fst snd].
  unfold polynomial, polynomial', polynomial''. rewrite !total_app, !total_one. cbn [fst snd]. rewrite A, A', B, B'. split; [unfold polynomial; ring|]. split; [reflexivity|].
  intros S. rewrite C, C'; [reflexivity| |].
  - destruct S as [S|S]; [left; exact S|right; apply (S (v, p)); apply in_or_app; right; left; reflexivity].
  - destruct S as [S|S]; [left; exact S|right; intros t I; apply S; apply in_or_app; left; exact I].
Qed.

(** ** Runs *)
Lemma monomial_ok : forall v p, ok true (monomial v p) (newMonomial v p).
Proof. intros v p. apply reachU_ok. unfold newMonomial. repeat constructor. Qed.
(** The inner function is right; the cell of the polynomial holds something for an abscissa already asked for *)
Definition sound (k : R) (h : list pop) (o : poly) : Prop :=
  ok true (p_expr o) (snd (p_state o)) /\ off (top (p_expr o) (snd (p_state o))) = 0 /\ off (fst (p_state o)) = 0 /\ right k (terms h) (p_expr o) /\
  (forall x, cx (fst (p_state o)) = Some x -> In x (asked h)).
(** Its cell is up to date as well *)
Definition current (o : poly) : Prop := forall x, cx (fst (p_state o)) = Some x -> cv (fst (p_state o)) = val3 (p_expr o) x.

Lemma get_hit : forall q x o, cx (fst (p_state o)) = Some x -> off (fst (p_state o)) = 0 -> polyGet q x o = (o, readq q (fst (p_state o))).
Proof.
  intros q x [e [c s]] H O. cbn [p_state p_expr fst snd] in *. unfold polyGet, get, ask. cbn [p_expr p_state top fst snd]. rewrite O, Rminus_0_r. cbn [eval fst snd].
  assert (E : isEval c x = true) by (apply isEval_hit; exact H). rewrite E. reflexivity.
Qed.
Lemma get_miss : forall q x o, cx (fst (p_state o)) <> Some x -> off (fst (p_state o)) = 0 -> ok true (p_expr o) (snd (p_state o)) -> off (top (p_expr o) (snd (p_state o))) = 0 ->
  exists s', polyGet q x o = (Poly (p_expr o) (store (fst (p_state o)) x (val3 (p_expr o) x), s'), match q with QY => vy (p_expr o) x | QD => vd (p_expr o) x | QDD => vdd (p_expr o) x end) /\
    ok true (p_expr o) s' /\ off (top (p_expr o) s') = 0.
Proof.
  intros q x [e [c s]] H O K T. cbn [p_state p_expr fst snd] in *. unfold polyGet, get, ask. cbn [p_expr p_state top fst snd]. rewrite O, Rminus_0_r. cbn [eval fst snd].
  assert (E : isEval c x = false). { destruct (isEval c x) eqn:I; [|reflexivity]. apply isEval_true in I. contradiction. } rewrite E.
  destruct (ask3_ok true e (eval_ok true e) s x K T) as (A & B & _ & C). rewrite (C eq_refl). exists (fst (ask3 (eval e) (top e) s x)).
  assert (U : unF UWrap (val3 e x) = val3 e x) by (destruct (val3 e x) as [[a b] d]; reflexivity). rewrite U. split; [|split; assumption].
  cbn [fst]. destruct q; reflexivity.
Qed.
Lemma sound_new : forall k, sound k [] (polyNew k) /\ current (polyNew k).
Proof.
  intros k. split; [|intros x H; discriminate H]. unfold sound. cbn [p_expr p_state polyNew fst snd]. split; [apply ok_clone; apply reachU_ok; constructor|]. split; [reflexivity|]. split; [reflexivity|]. split.
  - intros x. unfold vy, vd, vdd, polynomial, polynomial', polynomial'', total. cbn. split; [ring|]. split; [reflexivity|]. intros _. reflexivity.
  - intros x H. discriminate H.
Qed.
Lemma sound_add : forall k h o v p, sound k h o -> (1 <= p)%nat -> sound k (h ++ [PAdd v p])%list (polyAdd v p o).
Proof.
  intros k h o v p (A & B & C & D & E) P. unfold sound, polyAdd. cbn [p_expr p_state fst snd]. split; [apply ok_clone; apply ok_newBin; [exact A|apply monomial_ok]|].
  split; [apply off_clone|]. split; [exact C|]. split; [rewrite terms_app; apply right_add; assumption|]. intros x H. rewrite asked_app. apply in_or_app. left. exact (E x H).
Qed.
Lemma sound_get : forall k h o q x, sound k h o -> sound k (h ++ [PGet q x])%list (fst (polyGet q x o)).
Proof.
  intros k h o q x (A & B & C & D & E). assert (X : cx (fst (p_state o)) = Some x \/ cx (fst (p_state o)) <> Some x).
  { destruct (cx (fst (p_state o))) as [y|]; [|right; discriminate]. destruct (Req_dec y x) as [->|N]; [left; reflexivity|right; intros G; injection G as G; contradiction]. }
  destruct X as [X|X].
  - rewrite (get_hit q x o X C). unfold sound. cbn [fst]. rewrite terms_app, app_nil_r, asked_app. repeat split; try assumption; try apply D. intros y H. apply in_or_app. left. exact (E y H).
  - destruct (get_miss q x o X C A B) as (s' & G & K & T). rewrite G. unfold sound. cbn [fst snd p_expr p_state]. rewrite terms_app, app_nil_r, asked_app. split; [exact K|]. split; [exact T|]. split; [exact C|]. split; [exact D|].
    intros y H. unfold store in H. cbn in H. injection H as <-. apply in_or_app. right. left. reflexivity.
Qed.
Lemma sound_steps : forall k h2 h1 o, sound k h1 o -> powers_positive (h1 ++ h2)%list -> sound k (h1 ++ h2)%list (fold_left polyStep h2 o).
Proof.
  induction h2 as [|a h2 IH]; intros h1 o S P; [rewrite app_nil_r; exact S|]. cbn [fold_left]. replace (h1 ++ a :: h2)%list with ((h1 ++ [a]) ++ h2)%list in * by (rewrite <- app_assoc; reflexivity).
  apply IH; [|exact P]. destruct a as [v p|q x]; cbn [polyStep]; [|apply sound_get; exact S]. apply sound_add; [exact S|]. apply (P (v, p)). rewrite !terms_app. apply in_or_app. left. apply in_or_app. right. left. reflexivity.
Qed.
Lemma sound_run : forall k h, powers_positive h -> sound k h (polyRun k h).
Proof. intros k h P. apply (sound_steps k h [] (polyNew k)); [apply sound_new|exact P]. Qed.
Definition reply (q : query) (k : R) (l : list (R * nat)) (x : R) : R := match q with QY => polynomial k l x | QD => polynomial' l x | QDD => polynomial'' l x end.
Lemma answer_miss : forall k h o q x, sound k h o -> ~ In x (asked h) -> (q = QDD -> second_defined (terms h) x) -> snd (polyGet q x o) = reply q k (terms h) x.
Proof.
  intros k h o q x (A & B & C & D & E) N S. assert (X : cx (fst (p_state o)) <> Some x) by (intros H; apply N; exact (E x H)). destruct (get_miss q x o X C A B) as (s' & G & _ & _). rewrite G. cbn [snd].
  destruct (D x) as (D1 & D2 & D3). destruct q; cbn [reply]; [exact D1|exact D2|exact (D3 (S eq_refl))].
Qed.
Lemma current_get : forall k h o q x, sound k h o -> current o -> current (fst (polyGet q x o)) /\ ((q = QDD -> second_defined (terms h) x) -> snd (polyGet q x o) = reply q k (terms h) x).
Proof.
  intros k h o q x (A & B & C & D & E) U. destruct (D x) as (D1 & D2 & D3). assert (X : cx (fst (p_state o)) = Some x \/ cx (fst (p_state o)) <> Some x).
  { destruct (cx (fst (p_state o))) as [y|]; [|right; discriminate]. destruct (Req_dec y x) as [->|N]; [left; reflexivity|right; intros G; injection G as G; contradiction]. }
  destruct X as [X|X].
  - rewrite (get_hit q x o X C). cbn [fst snd]. split; [exact U|]. intros S. pose proof (U x X) as V. unfold vy, vd, vdd in *. rewrite <- V in *. unfold cv in *. cbn [fst snd] in *. destruct q; cbn [reply readq]; [exact D1|exact D2|exact (D3 (S eq_refl))].
  - destruct (get_miss q x o X C A B) as (s' & G & _ & _). rewrite G. cbn [fst snd]. split.
    + intros y H. cbn [p_state p_expr fst] in *. unfold store in H. cbn in H. injection H as <-. apply cv_store.
    + intros S. destruct q; cbn [reply]; [exact D1|exact D2|exact (D3 (S eq_refl))].
Qed.
Lemma no_query_cell : forall k h, only_additions h -> cx (fst (p_state (polyRun k h))) = None.
Proof.
  intros k h. unfold polyRun. assert (G : forall h o, only_additions h -> cx (fst (p_state o)) = None -> cx (fst (p_state (fold_left polyStep h o))) = None).
  { clear. induction h as [|[v p|q x] h IH]; intros o N C; [exact C| |discriminate N]. cbn [fold_left polyStep]. apply IH; [exact N|exact C]. }
  intros N. apply G; [exact N|reflexivity].
Qed.
Lemma current_queries : forall k h1 h2 o, sound k h1 o -> current o -> only_queries h2 -> current (fold_left polyStep h2 o).
Proof.
  intros k h1 h2. revert h1. induction h2 as [|[v p|q x] h2 IH]; intros h1 o S U N; [exact U|discriminate N|]. cbn [fold_left polyStep]. apply (IH (h1 ++ [PGet q x])%list); [apply sound_get; exact S|apply (current_get k h1); assumption|exact N].
Qed.

(** ** Directories *)
Lemma put_same : forall fs p e, put fs p e p = Some e.
Proof. intros fs p e. unfold put. destruct (list_eq_dec string_dec p p); [reflexivity|contradiction]. Qed.
Lemma put_other : forall fs p e q, p <> q -> put fs p e q = fs q.
Proof. intros fs p e q N. unfold put. destruct (list_eq_dec string_dec p q); [contradiction|reflexivity]. Qed.
Lemma ancestor_length : forall q p, ancestor q p -> (List.length q <= List.length p)%nat.
Proof. induction p as [|n p IH]; intros [->|H]; [apply le_n|contradiction|apply le_n|]. apply IH in H. cbn. lia. Qed.
Lemma tree_ancestor : forall fs q p, tree fs -> fs p = Some Dir -> ancestor q p -> fs q = Some Dir.
Proof.
  intros fs q p T. induction p as [|n p IH]; intros H [->|A]; [exact H|contradiction|exact H|]. apply IH; [|exact A]. apply (proj2 T n). rewrite H. discriminate.
Qed.
(** When no ancestor is a file *)
Lemma mkdir_made : forall p fs, tree fs -> (forall q, ancestor q p -> fs q <> Some File) ->
  exists fs', mkdir p fs = Made true fs' /\ tree fs' /\ fs' p = Some Dir /\ (forall q, fs q <> None -> fs' q = fs q) /\ (forall q, ~ ancestor q p -> fs' q = fs q).
Proof.
  induction p as [|n p IH]; intros fs T NF.
  - exists fs. cbn [mkdir]. rewrite (proj1 T). repeat split; try exact (proj1 T); try exact (proj2 T).
  - cbn [mkdir]. destruct (fs (n :: p)) as [[|]|] eqn:E.
    + exists fs. split; [reflexivity|]. split; [exact T|]. split; [exact E|]. split; reflexivity.
    + exfalso. apply (NF (n :: p)); [left; reflexivity|exact E].
    + destruct (IH fs T) as (fs1 & M & T1 & D1 & K1 & O1); [intros q A; apply NF; right; exact A|]. rewrite M, D1.
      assert (N1 : fs1 (n :: p) = None). { rewrite O1; [exact E|]. intros A. apply ancestor_length in A. cbn in A. lia. }
      exists (put fs1 (n :: p) Dir). split; [reflexivity|]. split; [|split; [apply put_same|split]].
      * split; [rewrite put_other by discriminate; exact (proj1 T1)|]. intros m r H. destruct (list_eq_dec string_dec (n :: p) (m :: r)) as [Q|Q].
        -- injection Q as <- <-. rewrite put_other by (intros X; apply (f_equal (@List.length string)) in X; cbn in X; lia). exact D1.
        -- rewrite put_other in H by exact Q. apply (proj2 T1) in H. destruct (list_eq_dec string_dec (n :: p) r) as [W|W]; [subst r; apply put_same|rewrite put_other by exact W; exact H].
      * intros q H. rewrite put_other by (intros <-; contradiction). apply K1. exact H.
      * intros q A. rewrite put_other by (intros <-; apply A; left; reflexivity). apply O1. intros B. apply A. right. exact B.
Qed.
(** A term added after a query, and the same query again *)
Lemma stale : forall k h v p x, powers_positive h -> only_additions h -> snd (polyGet QY x (polyAdd v p (fst (polyGet QY x (polyRun k h))))) = polynomial k (terms h) x.
Proof.
  intros k h v p x P N. pose proof (sound_run k h P) as S. pose proof (no_query_cell k h N) as C0. revert S C0. generalize (polyRun k h) as o. intros o S C0.
  assert (C : cx (fst (p_state o)) <> Some x) by (intros Q; discriminate (eq_trans (eq_sym C0) Q)).
  destruct S as (A & B & O & D & _). destruct (get_miss QY x o C O A B) as (s' & G & _ & _). rewrite G. cbn [fst]. rewrite get_hit; [|reflexivity|exact O]. cbn. apply D.
Qed.
