(** Properties C257-C261: polynomial functions, creation of directories. *)
From Coq Require Import Reals List String Bool Lra Lia.
From Coquelicot Require Import Coquelicot.
From Verif Require Import FunModel FunSpec FunProofs FunProofs2 PolModel PolSpec PolProofs.
Import ListNotations.
Open Scope R_scope.

(** C257: a polynomial made of a constant and of any number of terms has, whatever was asked before and in any order, the value and the derivatives of the
    polynomial of its terms ... *)
Theorem C257_polynomial : forall k h queries x, powers_positive h -> only_additions h -> only_queries queries ->
  let o := polyRun k (h ++ queries) in
  snd (polyGet QY x o) = polynomial k (terms h) x /\ snd (polyGet QD x o) = polynomial' (terms h) x /\
  (second_defined (terms h) x -> snd (polyGet QDD x o) = polynomial'' (terms h) x).
Proof.
  intros k h queries x P A Q o. assert (E : terms (h ++ queries)%list = terms h) by (rewrite terms_app, Q; apply app_nil_r).
  assert (S : sound k (h ++ queries)%list o) by (apply sound_run; unfold powers_positive; rewrite E; exact P). assert (U : current o).
  { unfold o, polyRun. rewrite fold_left_app. apply (current_queries k h); [apply (sound_run k h P)| |exact Q]. intros y H. fold (polyRun k h) in H. rewrite (no_query_cell k h A) in H. discriminate H. }
  pose proof (fun q => proj2 (current_get k _ o q x S U)) as G. rewrite E in G. split; [apply (G QY); discriminate|]. split; [apply (G QD); discriminate|]. intros W. apply (G QDD). intros _. exact W.
Qed.
(** ... and terms added in the middle of the queries are all there at the abscissas that were not asked for before *)
Theorem C257_interleaved : forall k h x, powers_positive h -> ~ In x (asked h) ->
  let o := polyRun k h in
  snd (polyGet QY x o) = polynomial k (terms h) x /\ snd (polyGet QD x o) = polynomial' (terms h) x /\
  (second_defined (terms h) x -> snd (polyGet QDD x o) = polynomial'' (terms h) x).
Proof.
  intros k h x P N o. assert (S : sound k h o) by (apply sound_run; exact P). pose proof (fun q => answer_miss k h o q x S N) as G.
  split; [apply (G QY); discriminate|]. split; [apply (G QD); discriminate|]. intros W. apply (G QDD). intros _. exact W.
Qed.
(** The sums of the specification are the derivatives of one another *)
Theorem C257_derivatives : forall k l x, (forall t, In t l -> (1 <= snd t)%nat) -> is_derive (polynomial k l) x (polynomial' l x) /\ is_derive (polynomial' l) x (polynomial'' l x).
Proof.
  intros k l x P.
  assert (D : forall p, is_derive (fun t => t ^ p) x (INR p * x ^ (p - 1))).
  { intros p. auto_derive; [exact I|]. replace (Init.Nat.pred p) with (p - 1)%nat by lia. ring. }
  assert (G : forall (f g : R * nat -> R -> R) l, (forall t, In t l -> is_derive (f t) x (g t x)) -> is_derive (fun y => total (fun t => f t y) l) x (total (fun t => g t x) l)).
  { clear. intros f g. induction l as [|t l IH]; intros H; unfold total in *; cbn [fold_right]; [apply D_const|]. eapply D_plus; [apply H; left; reflexivity|apply IH; intros u I; apply H; right; exact I|reflexivity]. }
  split.
  - unfold polynomial. eapply D_plus; [apply D_const| |symmetry; apply Rplus_0_l]. apply (G (fun t y => fst t * y ^ snd t) (fun t y => fst t * (INR (snd t) * y ^ (snd t - 1)))).
    intros t _. eapply D_mult; [apply D_const|apply D|]. ring.
  - apply (G (fun t y => fst t * (INR (snd t) * y ^ (snd t - 1))) (fun t y => fst t * (INR (snd t) * INR (snd t - 1) * y ^ (snd t - 2)))).
    intros t _. eapply D_mult; [apply D_const| |]. eapply D_mult; [apply D_const|apply D|reflexivity]. replace (snd t - 2)%nat with (snd t - 1 - 1)%nat by lia. ring.
Qed.
Example C257_inhabited : powers_positive [PAdd 3 1; PAdd (-1) 4] /\ only_additions [PAdd 3 1; PAdd (-1) 4] /\ only_queries [PGet QY 2; PGet QDD 1; PGet QD 2] /\
  polynomial 5 (terms [PAdd 3 1; PAdd (-1) 4]) 2 = -5 /\ second_defined (terms [PAdd 3 1; PAdd (-1) 4]) 2.
Proof.
  split; [intros t [<-|[<-|[]]]; cbn; lia|]. split; [reflexivity|]. split; [reflexivity|]. split; [unfold polynomial, total; cbn; ring|]. left. lra.
Qed.

(** C258: a polynomial with a linear term has no second derivative at zero: the program multiplies zero by an infinite power *)
Theorem C258_second : forall u u' u'' p, u <> 0 \/ 2 <= p -> PowSecond u u' u'' p = Some (p * (u'' * c_pow u (p - 1) + (p - 1) * u' * u' * c_pow u (p - 2))).
Proof.
  intros u u' u'' p H. unfold PowSecond, pow_infinite. destruct (Req_EM_T u 0) as [E|E]; [|reflexivity]. destruct H as [H|H]; [contradiction|].
  destruct (Rlt_dec (p - 1) 0); [lra|]. destruct (Rlt_dec (p - 2) 0); [lra|]. reflexivity.
Qed.
Theorem C258_linear_term_refuted : ~ (forall p x, (1 <= p)%nat -> PowSecond x 1 0 (INR p) = Some (INR p * INR (p - 1) * x ^ (p - 2))).
Proof.
  intros H. specialize (H 1%nat 0 (le_n 1)). unfold PowSecond, pow_infinite in H. destruct (Req_EM_T 0 0) as [_|N]; [|contradiction].
  destruct (Rlt_dec (INR 1 - 2) 0) as [_|N]; [|apply N; cbn; lra]. rewrite orb_true_r in H. discriminate H.
Qed.
Example C258_inhabited : PowSecond 2 1 0 3 <> None.
Proof. rewrite C258_second by (right; lra). discriminate. Qed.

(** C259: a term added after a query is not seen at the abscissa of that query *)
Theorem C259_stale_refuted : ~ (forall k h x, powers_positive h -> snd (polyGet QY x (polyRun k h)) = polynomial k (terms h) x).
Proof.
  intros H. specialize (H 0 [PAdd 1 1; PGet QY 2; PAdd 1 2] 2). assert (E : snd (polyGet QY 2 (polyRun 0 [PAdd 1 1; PGet QY 2; PAdd 1 2])) = polynomial 0 (terms [PAdd 1 1]) 2).
  { apply (stale 0 [PAdd 1 1] 1 2 2); [intros t [<-|[]]; cbn; lia|reflexivity]. }
  rewrite E in H. unfold polynomial, total in H. cbn [terms fold_right fst snd] in H. assert (X : 0 + (1 * 2 ^ 1 + 0) = 0 + (1 * 2 ^ 1 + (1 * 2 ^ 2 + 0))) by (apply H; intros t [<-|[<-|[]]]; cbn; lia). lra.
Qed.

(** C260: when no ancestor of the path is a file, the directory and all its ancestors exist after mkdir, which returns true, and nothing else changes *)
Theorem C260_mkdir : forall p fs, tree fs -> (forall q, ancestor q p -> fs q <> Some File) ->
  exists fs', mkdir p fs = Made true fs' /\ (forall q, ancestor q p -> fs' q = Some Dir) /\ (forall q, ~ ancestor q p -> fs' q = fs q) /\ tree fs'.
Proof.
  intros p fs T N. destruct (mkdir_made p fs T N) as (fs' & M & T' & D & K & O). exists fs'. split; [exact M|]. split; [intros q A; exact (tree_ancestor fs' q p T' D A)|]. split; assumption.
Qed.
Theorem C260_again : forall p fs fs', tree fs -> (forall q, ancestor q p -> fs q <> Some File) -> mkdir p fs = Made true fs' -> mkdir p fs' = Made true fs'.
Proof.
  intros p fs fs' T N M. destruct (mkdir_made p fs T N) as (fs1 & M1 & _ & D & _). rewrite M in M1. injection M1 as <-. destruct p; cbn [mkdir]; rewrite D; reflexivity.
Qed.
Example C260_inhabited : let fs := fun p : list string => match p with [] => Some Dir | ["a"%string] => Some Dir | ["f"%string] => Some File | _ => None end in
  tree fs /\ (forall q, ancestor q ["c"; "b"; "a"]%string -> fs q <> Some File).
Proof.
  cbv zeta. split.
  - split; [reflexivity|]. intros n p H. destruct p as [|m p]; [reflexivity|]. exfalso. apply H. destruct n as [|c n]; [reflexivity|]. destruct c as [[] [] [] [] [] [] [] []]; try reflexivity; destruct n; reflexivity.
  - intros q [->|[->|[->|[->|[]]]]]; discriminate.
Qed.

(** C261: mkdir also returns true for a file, without a directory *)
Theorem C261_file_refuted : ~ (forall p fs fs', tree fs -> mkdir p fs = Made true fs' -> fs' p = Some Dir).
Proof.
  intros H. set (fs := fun p : list string => match p with [] => Some Dir | [n] => if string_dec n "f" then Some File else None | _ => None end).
  assert (T : tree fs). { split; [reflexivity|]. intros n p X. destruct p as [|m p]; [reflexivity|]. exfalso. apply X. reflexivity. }
  specialize (H ["f"%string] fs fs T eq_refl). discriminate H.
Qed.
(** ... and stops the program below a file *)
Theorem C261_below_file : forall n m p fs, fs (n :: m :: p) = None -> fs (m :: p) = Some File -> mkdir (n :: m :: p) fs = ExitFailure.
Proof. intros n m p fs A B. cbn [mkdir]. rewrite A, B. rewrite B. reflexivity. Qed.
