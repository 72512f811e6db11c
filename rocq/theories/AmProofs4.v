(** Two bodies with coupled surge, and the cases where the variables do not represent the generalized mass. *)
From Coq Require Import Reals List Bool Arith Lia Lra Psatz FunctionalExtensionality.
From Verif Require Import GeoModel GeoSpec BodyModel InertiaModel SeaModel FloModel RadModel RadSpec RadProofs7 RadProofs8 ExcProofs5 AmModel AmSpec AmProofs AmProofs2 AmProofs3.
Import ListNotations.
Open Scope R_scope.

(** Unit masses and inertias; added mass 1/2 in surge between the two bodies *)
Definition unit_tensor (mass : R) : tensor := Tensor mass (V 0 0 0) (M 1 0 0 0 1 0 0 0 1).
Definition surge (x : R) : mat6 := fun a b => match a, b with 0%nat, 0%nat => x | _, _ => 0 end.
Definition A0 (i j : nat) : mat6 := if Nat.eqb i j then surge 0 else surge (1 / 2).
Definition bem0 (i : nat) : bem := Bem (new_mask 0 (fun _ => false)) (fun j => Some (A0 i j)) (fun _ => []) (fun _ => []).
Definition e0 : vec6 := fun k => match k with 0%nat => 1 | _ => 0 end.
Definition pair0 : fleet := Fleet (Hdb bem0 [0%nat; 1%nat]) (fun _ => unit_tensor 1) (fun _ => true) (fun i => (6 * i)%nat) (fun _ => Frame_make (V 0 0 0) (Q 1 0 0 0) NWU) (fun _ => e0) (fun _ => e0).
Lemma pair0_mass : has_added_mass pair0 A0.
Proof. split; [repeat constructor; cbn; intuition discriminate|]. reflexivity. Qed.
Lemma pair0_active : all_active pair0.
Proof. intros i _. reflexivity. Qed.
Lemma pair0_apart : apart pair0.
Proof. intros i j [<-|[<-|[]]] [<-|[<-|[]]] H; cbn; try lia; congruence. Qed.
(** Its inverse *)
Definition P0 : matrix := fun r c => if Nat.eqb r c then (if orb (Nat.eqb r 0) (Nat.eqb r 6) then 4 / 3 else 1) else
  if orb (andb (Nat.eqb r 0) (Nat.eqb c 6)) (andb (Nat.eqb r 6) (Nat.eqb c 0)) then - (2 / 3) else 0.
Definition agree (n : nat) (M1 M2 : matrix) : bool := forallb (fun r => forallb (fun c => if Req_EM_T (M1 r c) (M2 r c) then true else false) (seq 0 n)) (seq 0 n).
Lemma agree_ok n M1 M2 : agree n M1 M2 = true <-> forall r c, (r < n)%nat -> (c < n)%nat -> M1 r c = M2 r c.
Proof.
  unfold agree. rewrite forallb_forall. split.
  - intros H r c Hr Hc. assert (I : In r (seq 0 n)) by (apply in_seq; lia). specialize (H r I). rewrite forallb_forall in H. specialize (H c). destruct (Req_EM_T (M1 r c) (M2 r c)); [assumption|].
    exfalso. assert (false = true) by (apply H; apply in_seq; lia). discriminate.
  - intros H r Hr. apply forallb_forall. intros c Hc. apply in_seq in Hr, Hc. destruct (Req_EM_T (M1 r c) (M2 r c)); [reflexivity|]. exfalso. apply n0, H; lia.
Qed.
(** A matrix library that knows one inverse *)
Definition knows (n0 : nat) (M0 P : matrix) : nat -> matrix -> option matrix := fun n M1 => if andb (Nat.eqb n n0) (agree n M1 M0) then Some P else None.
Lemma knows_inverts n0 M0 P : is_inverse n0 M0 P -> inverts (knows n0 M0 P).
Proof.
  intros H n M1 P1 E. unfold knows in E. destruct (andb (Nat.eqb n n0) (agree n M1 M0)) eqn:B; [|discriminate]. injection E as <-. apply andb_prop in B. destruct B as [B1 B2].
  apply Nat.eqb_eq in B1. subst n0. intros r c Hr Hc. destruct (H r c Hr Hc) as [H1 H2]. pose proof (proj1 (agree_ok n M1 M0) B2) as Eq. split.
  - rewrite <- H1. apply tot_in. intros k K. apply in_seq in K. rewrite Eq by lia. reflexivity.
  - rewrite <- H2. apply tot_in. intros k K. apply in_seq in K. rewrite Eq by lia. reflexivity.
Qed.
Lemma knows_builds f A P m0 : has_added_mass f A -> BuildGeneralizedMass (knows (6 * length (bodies f)) (flat f A) P) f m0 = Ok (save_rows P (bodies f) 0 (bodies f) m0).
Proof.
  intros HA. destruct (rows_ok f A HA (bodies f) (fun j J => J)) as (rs & Er & Hr). unfold BuildGeneralizedMass. unfold bodies in Er. rewrite Er. cbn [rbind]. unfold knows. fold (bodies f).
  rewrite Nat.eqb_refl. rewrite (proj2 (agree_ok _ (mass_matrix rs) (flat f A))); [reflexivity|]. intros r c H1 H2. apply mass_entry; auto.
Qed.
Lemma P0_inverse : is_inverse 12 (flat pair0 A0) P0.
Proof.
  intros r c Hr Hc. do 12 (destruct r as [|r]; [do 12 (destruct c as [|c]; [cbv -[Rplus Rmult Ropp Rinv Rdiv IZR]; cbn; split; field|]); lia|]). lia.
Qed.
Definition inv0 := knows 12 (flat pair0 A0) P0.
Definition m0 : block_map := save_rows P0 [0%nat; 1%nat] 0 [0%nat; 1%nat] no_blocks.
Lemma pair0_built : inverts inv0 /\ BuildGeneralizedMass inv0 pair0 no_blocks = Ok m0.
Proof. split; [apply knows_inverts, P0_inverse|]. exact (knows_builds pair0 A0 P0 no_blocks pair0_mass). Qed.
