(** Lemmas for C262-C270. *)
From Coq Require Import Reals ZArith String List Bool Lra Lia.
From Verif Require Import IoModel IoSpec.
Import ListNotations.

Lemma map_nth_seq : forall A (d : A) (l : list A) k, map (fun j => nth j l d) (seq k (length l - k)) = skipn k l.
Proof.
  intros A d l. induction l as [|a l IH]; intros k; [rewrite skipn_nil; reflexivity|]. destruct k as [|k].
  - cbn [length Nat.sub seq map nth skipn]. f_equal. rewrite <- seq_shift, map_map. specialize (IH 0). rewrite Nat.sub_0_r in IH. exact IH.
  - cbn [length Nat.sub skipn]. rewrite <- (IH k), <- seq_shift, map_map. reflexivity.
Qed.
Lemma map_nth_all : forall A (d : A) (l : list A), map (fun j => nth j l d) (seq 0 (length l)) = l.
Proof. intros A d l. rewrite <- (Nat.sub_0_r (length l)). apply (map_nth_seq A d l 0). Qed.
Lemma rows_concat : forall A (z : A) c M, rectangular c M ->
  map (fun i => map (fun j => nth (i * c + j) (concat M) z) (seq 0 c)) (seq 0 (length M)) = M.
Proof.
  intros A z c M. induction M as [|r M IH]; intros H; [reflexivity|]. assert (L : length r = c) by (apply H; left; reflexivity).
  cbn [length seq map concat]. f_equal.
  - transitivity (map (fun j => nth j r z) (seq 0 c)); [|rewrite <- L; apply map_nth_all].
    apply map_ext_in. intros j I. apply in_seq in I. cbn [Nat.mul Nat.add]. apply app_nth1. lia.
  - rewrite <- seq_shift, map_map. rewrite <- IH at 2 by (intros s I; apply H; right; exact I). apply map_ext. intros i. apply map_ext. intros j.
    rewrite app_nth2 by (rewrite L; nia). f_equal. rewrite L. nia.
Qed.

(** The loop over the columns *)
Lemma push_back : forall (f : nat -> R) js vec, fold_left (fun vec j => (vec ++ [f j])%list) js vec = (vec ++ map f js)%list.
Proof. intros f js. induction js as [|j js IH]; intros vec; cbn [fold_left map]; [symmetry; apply app_nil_r|]. rewrite IH, <- app_assoc. reflexivity. Qed.
Lemma std_loop : forall (m : mat R) n k vec res,
  snd (fold_left (fun s i => let vec := fold_left (fun vec j => (vec ++ [m_at m j i])%list) (seq 0 (m_rows m)) (fst s) in (vec, (snd s ++ [vec])%list)) (seq k n) (vec, res))
  = (res ++ map (fun i => vec ++ concat (map (column m) (seq k (S i)))) (seq 0 n))%list.
Proof.
  intros m n. induction n as [|n IH]; intros k vec res; [symmetry; apply app_nil_r|]. cbn [seq fold_left]. cbv zeta. cbn [fst snd].
  rewrite (push_back (fun j => m_at m j k)). cbv zeta in IH. rewrite IH. cbn [map]. rewrite <- app_assoc. f_equal. cbn [app seq map concat]. rewrite app_nil_r.
  f_equal. rewrite <- seq_shift, map_map. apply map_ext. intros i. cbn [seq map concat]. rewrite <- app_assoc. reflexivity.
Qed.
Lemma std_value : forall f p m, ReadDoubleArray f p = Value m ->
  ReadDoubleArraySTD f p = Value (map (fun i => concat (map (column m) (seq 0 (S i)))) (seq 0 (m_cols m))).
Proof. intros f p m H. unfold ReadDoubleArraySTD. rewrite H, std_loop. reflexivity. Qed.

(** Files *)
Definition fine (o : reader) : Prop := exists h, r_file o = Some h /\ (forall k, In k (r_open o) -> k = h).
Lemma close_empty : forall o h, r_file o = Some h -> (forall k, In k (r_open o) -> k = h) -> r_open (close h o) = [].
Proof.
  intros o h E F. unfold close. cbn [r_open]. induction (r_open o) as [|k l IH]; [reflexivity|]. cbn [filter]. rewrite (F k) by (left; reflexivity).
  rewrite Nat.eqb_refl. cbn [negb]. apply IH. intros j I. apply F. right. exact I.
Qed.
Lemma tidy_run : forall n h o, length h <= n -> tidy h -> fine o -> exists o', rrun o h = Some o' /\ fine o'.
Proof.
  induction n as [|n IH]; intros h o L T F.
  { destruct h; [|cbn in L; lia]. exists o. split; [reflexivity|exact F]. }
  destruct h as [|a h]; [exists o; split; [reflexivity|exact F]|]. destruct a as [b|]; [destruct T|]. destruct F as (x & E & G).
  pose proof (close_empty o x E G) as C. unfold rrun. cbn [fold_left rstep]. rewrite E.
  assert (F' : fine (close x o)) by (exists x; split; [exact E|rewrite C; intros k []]). cbn [length] in L. destruct h as [|[[]|] h].
  - exists (close x o). split; [reflexivity|exact F'].
  - cbn [fold_left rstep]. apply (IH h); [cbn [length] in L; lia|exact T|]. exists (r_next (close x o)). split; [reflexivity|]. cbn [r_open]. rewrite C. intros k [<-|[]]. reflexivity.
  - destruct T.
  - apply (IH (Close :: h)); [cbn [length] in *; lia|exact T|exact F'].
Qed.
