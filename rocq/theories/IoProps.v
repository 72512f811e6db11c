(** Properties C262-C270: the HDF5 reader and the configuration file. *)
From Coq Require Import Reals ZArith String List Bool Lra Lia.
From Verif Require Import IoModel IoSpec IoProofs.
Import ListNotations.

(** C262: an array of any size written by rows is read back with the same rows, and a list as one column *)
Theorem C262_double_array : forall f p M c, rectangular c M -> f p = Some (Data (stored_rows M c)) ->
  exists m, ReadDoubleArray f p = Value m /\ m_rows m = length M /\ m_cols m = c /\ rows m = M.
Proof.
  intros f p M c H E. unfold ReadDoubleArray. rewrite E. eexists. split; [reflexivity|]. split; [reflexivity|]. split; [reflexivity|]. apply rows_concat. exact H.
Qed.
Theorem C262_int_array : forall f p M c, rectangular c M -> f p = Some (Data (stored_ints M c)) ->
  exists m, ReadIntArray f p = Some (Value m) /\ m_rows m = length M /\ m_cols m = c /\ rows m = M.
Proof.
  intros f p M c H E. unfold ReadIntArray. rewrite E. eexists. split; [reflexivity|]. split; [reflexivity|]. split; [reflexivity|]. apply rows_concat. exact H.
Qed.
Theorem C262_list : forall f p l, f p = Some (Data (stored_list l)) -> exists m, ReadDoubleArray f p = Value m /\ m_cols m = 1%nat /\ column m 0 = l.
Proof.
  intros f p l E. unfold ReadDoubleArray. rewrite E. eexists. split; [reflexivity|]. split; [reflexivity|]. unfold column. cbn [m_at m_rows].
  etransitivity; [|apply (map_nth_all R R0 l)]. apply map_ext. intros i. f_equal. lia.
Qed.
Theorem C262_not_a_dataset : forall f p, (f p = None \/ f p = Some Group) -> ReadDoubleArray f p = Threw /\ ReadIntArray f p = Some Threw.
Proof. intros f p [E|E]; unfold ReadDoubleArray, ReadIntArray; rewrite E; split; reflexivity. Qed.
Theorem C262_three_dimensions : forall f p a b c l d, f p = Some (Data (DS (a :: b :: c :: l) d)) -> ReadDoubleArray f p = Threw.
Proof. intros f p a b c l d E. unfold ReadDoubleArray. rewrite E. destruct d; reflexivity. Qed.
Example C262_inhabited : rectangular 3 [[1; 2; 3]; [4; 5; 6]]%R.
Proof. intros r [<-|[<-|[]]]; reflexivity. Qed.

(** C263: ReadDoubleArraySTD gives the list of a dataset with one dimension; with more columns, its vectors accumulate the columns *)
Theorem C263_list : forall f p l, f p = Some (Data (stored_list l)) -> ReadDoubleArraySTD f p = Value [l].
Proof.
  intros f p l E. destruct (C262_list f p l E) as (m & H & C & L). rewrite (std_value f p m H), C. cbn [seq map concat]. rewrite L, app_nil_r. reflexivity.
Qed.
Theorem C263_accumulates : forall f p m i, ReadDoubleArray f p = Value m -> (i < m_cols m)%nat ->
  exists r, ReadDoubleArraySTD f p = Value r /\ length r = m_cols m /\ nth i r [] = concat (map (column m) (seq 0 (S i))).
Proof.
  intros f p m i H I. eexists. split; [exact (std_value f p m H)|]. split; [rewrite map_length, seq_length; reflexivity|].
  rewrite (nth_indep _ _ (concat (map (column m) (seq 0 (S (m_cols m)))))) by (rewrite map_length, seq_length; exact I).
  rewrite (map_nth (fun i => concat (map (column m) (seq 0 (S i)))) (seq 0 (m_cols m)) (m_cols m)), seq_nth by exact I. reflexivity.
Qed.
Theorem C263_columns_refuted : ~ (forall f p m r j, ReadDoubleArray f p = Value m -> ReadDoubleArraySTD f p = Value r -> (j < m_cols m)%nat -> nth j r [] = column m j).
Proof.
  intros H. set (f := fun _ : list string => Some (Data (stored_rows [[1; 2]]%R 2))). destruct (C262_double_array f [] [[1; 2]]%R 2) as (m & E & RW & C & _); [intros r [<-|[]]; reflexivity|reflexivity|].
  destruct (C263_accumulates f [] m 1 E) as (r & S & _ & N); [lia|]. specialize (H f [] m r 1%nat E S ltac:(lia)). rewrite N in H. apply (f_equal (@length R)) in H.
  cbn [seq map concat] in H. rewrite app_nil_r, app_length in H. unfold column in H. rewrite !map_length, !seq_length, RW in H. discriminate H.
Qed.
Example C263_inhabited : exists f : hfile, f ["x"%string] = Some (Data (stored_list [1; 2; 3]%R)).
Proof. exists (fun _ => Some (Data (stored_list [1; 2; 3]%R))). reflexivity. Qed.

(** C264: ReadIntArraySTD never gives back the integers: those of a dataset of integers are not defined ... *)
Theorem C264_ints_refuted : ~ (forall f p M c, rectangular c M -> f p = Some (Data (stored_ints M c)) -> ReadIntArraySTD f p = Value M).
Proof.
  intros H. specialize (H (fun _ => Some (Data (stored_ints [[1%Z]] 1))) [] [[1%Z]] 1%nat). discriminate H; [|reflexivity]. intros r [<-|[]]. reflexivity.
Qed.
(** ... and every integer of the result of a dataset of doubles is zero *)
Theorem C264_zeros : forall f p r v z, ReadIntArraySTD f p = Value r -> In v r -> In z v -> z = 0%Z.
Proof.
  intros f p r v z H V Z. unfold ReadIntArraySTD in H. destruct (ReadDoubleArray f p) as [m| |]; [|discriminate H|discriminate H]. cbv zeta in H.
  destruct (existsb _ _) in H; [discriminate H|]. injection H as <-. apply in_map_iff in V. destruct V as (d & <- & _). apply repeat_spec in Z. exact Z.
Qed.
Theorem C264_sizes : forall f p l, f p = Some (Data (stored_list (map INR l))) -> ReadIntArraySTD f p = Value (map (repeat 0%Z) l).
Proof.
  intros f p l E. destruct (C262_list f p (map INR l) E) as (m & H & C & L). unfold ReadIntArraySTD. rewrite H. cbv zeta. rewrite C. cbn [seq flat_map].
  change (map (fun i => m_at m i 0) (seq 0 (m_rows m))) with (column m 0). rewrite L, app_nil_r.
  assert (X : existsb (fun d => if Rlt_dec d R0 then true else false) (map INR l) = false).
  { clear. induction l as [|n l IH]; [reflexivity|]. cbn [map existsb]. rewrite IH. destruct (Rlt_dec (INR n) R0) as [N|_]; [pose proof (pos_INR n); lra|reflexivity]. }
  rewrite X. f_equal. rewrite map_map. apply map_ext. intros n. f_equal. rewrite INR_IZR_INZ. unfold Int_part. rewrite <- (tech_up (IZR (Z.of_nat n)) (Z.of_nat n + 1)).
  - replace (Z.of_nat n + 1 - 1)%Z with (Z.of_nat n) by lia. apply Nat2Z.id.
  - rewrite plus_IZR. lra.
  - rewrite plus_IZR. lra.
Qed.

(** C265: below a group that exists with all its ancestors, GroupExist tells whether the link exists *)
Theorem C265_exists : forall f n p, (forall k, (k <= length p)%nat -> f (skipn k p) = Some Group) -> (GroupExist f (n :: p) = true <-> f (n :: p) <> None).
Proof.
  intros f n p H. assert (E : parents_exist f (n :: p) = true).
  { cbn [parents_exist]. pose proof (H 0%nat ltac:(lia)) as H0. cbn [skipn] in H0. rewrite H0. clear n H0. induction p as [|m p IH]; [reflexivity|]. cbn [parents_exist].
    pose proof (H 1%nat ltac:(cbn; lia)) as H1. cbn [skipn] in H1. rewrite H1. apply IH. intros k K. apply (H (S k)). cbn [length]. lia. }
  unfold GroupExist, H5Lexists. rewrite E. destruct (f (n :: p)); cbn; split; try discriminate; try reflexivity. intros X. exfalso. apply X. reflexivity.
Qed.
Example C265_inhabited : exists f : hfile, forall k, (k <= length ["a"%string])%nat -> f (skipn k ["a"%string]) = Some Group.
Proof. exists (fun _ => Some Group). reflexivity. Qed.

(** C266: it is also true of everything below a group that does not exist *)
Theorem C266_missing_parent : forall f n m p, f (m :: p) = None -> GroupExist f (n :: m :: p) = true.
Proof. intros f n m p H. unfold GroupExist, H5Lexists. cbn [parents_exist]. rewrite H. reflexivity. Qed.
Theorem C266_group_refuted : ~ (forall f p, GroupExist f p = true -> f p <> None).
Proof. intros H. apply (H (fun _ => None) ["b"; "a"]%string); reflexivity. Qed.

(** C267: a reader whose files are found and closed before they are replaced leaves no file open *)
Theorem C267_closed : forall h, tidy h -> destroy (rrun newReaderOf h) = Some [] /\ destroy (rrun newReader (SetFilename true :: h)) = Some [].
Proof.
  intros h T. assert (F : fine newReaderOf) by (exists 0%nat; split; [reflexivity|intros k [<-|[]]; reflexivity]).
  destruct (tidy_run (length h) h newReaderOf (le_n _) T F) as (o & R & x & E & G). assert (D : destroy (Some o) = Some []) by (unfold destroy; rewrite E, (close_empty o x E G); reflexivity).
  split; [rewrite R; exact D|]. change (rrun newReader (SetFilename true :: h)) with (rrun newReaderOf h). rewrite R. exact D.
Qed.
Example C267_inhabited : tidy [Close; SetFilename true; Close; Close; SetFilename true].
Proof. exact I. Qed.

(** C268: otherwise not: a file that is replaced stays open, and a reader without file cannot be destroyed *)
Theorem C268_replaced_refuted : ~ (forall h, destroy (rrun newReaderOf h) = Some []).
Proof. intros H. specialize (H [SetFilename true]). discriminate H. Qed.
Theorem C268_no_file : destroy (rrun newReader []) = None /\ forall h o, rrun newReaderOf h = Some o -> destroy (rrun newReaderOf (h ++ [SetFilename false])) = None.
Proof. split; [reflexivity|]. intros h o H. unfold rrun in *. rewrite fold_left_app, H. reflexivity. Qed.

(** C269: the folders are those of the configuration file of the current directory, otherwise of the home directory *)
Theorem C269_folders : forall fs cwd home j, (fs (name_in cwd) = Some (Some j) \/ (fs (name_in cwd) = None /\ fs (name_in home) = Some (Some j))) ->
  exists log data, FrConfig fs cwd home = Some (log, data) /\ (forall s, entry j "log_folder" s -> log = s) /\ (forall s, entry j "data_folder" s -> data = s) /\
  ((forall s, ~ entry j "log_folder" s) -> log = ""%string) /\ ((forall s, ~ entry j "data_folder" s) -> data = ""%string).
Proof.
  intros fs cwd home j H. assert (N : forall d, String.eqb (name_in d) "" = false) by (intros [|c d]; reflexivity).
  assert (K : forall key, match bindo (bindo (at_key "frydom_config" j) (at_key key)) to_string with Some s => entry j key s | None => forall s, ~ entry j key s end).
  { intros key. destruct (bindo (bindo (at_key "frydom_config" j) (at_key key)) to_string) as [s|] eqn:E.
    - destruct j as [top| | |]; try discriminate E. cbn in E. destruct (top "frydom_config"%string) as [[inner| | |]|] eqn:T; cbn in E; try discriminate E.
      destruct (inner key) as [[]|] eqn:L; cbn in E; try discriminate E. injection E as ->. exists top, inner. split; [reflexivity|]. split; [exact T|exact L].
    - intros s (top & inner & -> & T & L). cbn in E. rewrite T in E. cbn in E. rewrite L in E. discriminate E. }
  assert (U : forall key s s', entry j key s -> entry j key s' -> s = s').
  { intros key s s' (top & inner & -> & T & L) (top' & inner' & J & T' & L'). injection J as <-. rewrite T in T'. injection T' as <-. rewrite L in L'. injection L' as <-. reflexivity. }
  assert (E : exists file, LookForConfigFile fs cwd home = file /\ fs file = Some (Some j) /\ String.eqb file "" = false).
  { unfold LookForConfigFile. destruct H as [A|[A B]]; rewrite A; [|rewrite B]; eexists; (split; [reflexivity|]); split; try apply N; assumption. }
  destruct E as (file & L & S & Z). unfold FrConfig. rewrite L, S, Z. cbv zeta. pose proof (K "log_folder"%string) as K1. pose proof (K "data_folder"%string) as K2.
  do 2 eexists. split; [reflexivity|].
  destruct (bindo (bindo (at_key "frydom_config" j) (at_key "log_folder")) to_string) as [s1|]; destruct (bindo (bindo (at_key "frydom_config" j) (at_key "data_folder")) to_string) as [s2|];
    (split; [intros s X; first [exact (U _ _ _ K1 X)|destruct (K1 s X)]|]; split; [intros s X; first [exact (U _ _ _ K2 X)|destruct (K2 s X)]|]; split; intros X; first [reflexivity|destruct (X _ K1)|destruct (X _ K2)]).
Qed.
Example C269_inhabited : let inner := fun k : string => if String.eqb k "log_folder" then Some (JString "/logs") else None in
  entry (JObject (fun k => if String.eqb k "frydom_config" then Some (JObject inner) else None)) "log_folder" "/logs".
Proof. cbv zeta. do 2 eexists. split; [reflexivity|]. split; reflexivity. Qed.

(** C270: without configuration file the constructor ends with an exception, instead of taking the current directory *)
Theorem C270_no_file : forall fs cwd home, fs (name_in cwd) = None -> fs (name_in home) = None -> fs ""%string = None -> FrConfig fs cwd home = None.
Proof. intros fs cwd home A B C. unfold FrConfig, LookForConfigFile. rewrite A, B, C. reflexivity. Qed.
Theorem C270_default_refuted : ~ (forall fs cwd home, fs (name_in cwd) = None -> fs (name_in home) = None -> fs ""%string = None -> FrConfig fs cwd home = Some (cwd, cwd)).
Proof. intros H. specialize (H (fun _ => None) "/w"%string "/h"%string eq_refl eq_refl eq_refl). discriminate H. Qed.
