(** Independent specification of the function objects: what a user means by the expression he wrote. *)
From Coq Require Import Reals List Rtrigo_facts.
From Verif Require Import FunModel.
Open Scope R_scope.

(** Textbook meaning of an expression tree (no caches, no objects). *)
Definition denU (o : uop) (u : R) : R :=
  match o with
  | UNeg => - u | UPos => u | UWrap => u
  | UCos => cos u | USin => sin u | UTan => tan u
  | UACos => acos u | UASin => asin u | UATan => atan u
  | UCosh => cosh u | USinh => sinh u | UTanh => tanh u
  | UACosh => c_acosh u | UASinh => arcsinh u | UATanh => c_atanh u
  | USqrt => sqrt u | UAbs => Rabs u
  | UPow p => c_pow u p
  end.
Fixpoint den (e : expr) (x : R) : R :=
  match e with
  | Var => x
  | Cst c => c
  | Un o f => denU o (den f x)
  | Bin BAdd f g => den f x + den g x
  | Bin BSub f g => den f x - den g x
  | Bin BMul f g => den f x * den g x
  | Bin BDiv f g => den f x / den g x
  | Bin BComp f g => den f (den g x)
  | Clamp After xc f => if Rle_dec xc x then den f xc else den f x
  | Clamp Before xc f => if Rle_dec x xc then den f xc else den f x
  end.

(** Operand values at which the one-operand nodes are twice differentiable. *)
Definition udom (o : uop) (u : R) : Prop :=
  match o with
  | UTan => cos u <> 0
  | UACos | UASin | UATanh => -1 < u < 1
  | UACosh => 1 < u
  | USqrt => 0 < u
  | UAbs => u <> 0
  | UPow p => 0 < u \/ (exists n : Z, p = IZR n /\ u <> 0) \/ (exists n : nat, p = INR n /\ (2 <= n)%nat)
  | _ => True
  end.
(** Points at which an expression is regular: every node is used in the interior of its domain. *)
Fixpoint regular (e : expr) (x : R) : Prop :=
  match e with
  | Var | Cst _ => True
  | Un o f => regular f x /\ udom o (den f x)
  | Bin BComp f g => regular g x /\ regular f (den g x)
  | Bin BDiv f g => regular f x /\ regular g x /\ den g x <> 0
  | Bin _ f g => regular f x /\ regular g x
  | Clamp d xc f => x <> xc /\ (if inClamp d xc x then True else regular f x)
  end.

Fixpoint noAsinh (e : expr) : Prop :=
  match e with
  | Var | Cst _ => True
  | Un o f => o <> UASinh /\ noAsinh f
  | Bin _ f g => noAsinh f /\ noAsinh g
  | Clamp _ _ f => noAsinh f
  end.

(** No clamp applied directly to a clamp. *)
Fixpoint noClampClamp (e : expr) : Prop :=
  match e with
  | Var | Cst _ => True
  | Un _ f => noClampClamp f
  | Bin _ f g => noClampClamp f /\ noClampClamp g
  | Clamp _ _ f => noClampClamp f /\ match f with Clamp _ _ _ => False | _ => True end
  end.

(** Histories in which clamps are only ever built on functions that have not been queried yet
    (all other operations are unrestricted). *)
Inductive reachU : forall e, state e -> Prop :=
| u_var : reachU Var newVar
| u_cst k : reachU (Cst k) (newCst k)
| u_un o f s : reachU f s -> reachU (Un o f) (newUn o f s)
| u_bin o f g s t : reachU f s -> reachU g t -> reachU (Bin o f g) (newBin o f g s t)
| u_clamp d xc f s : reachU f s -> cx (top f s) = None -> reachU (Clamp d xc f) (newClamp d xc f s)
| u_copy e s : reachU e s -> reachU e (clone e s)
| u_query q e s x : reachU e s -> reachU e (fst (get q e s x))
| u_off a e s : reachU e s -> reachU e (setOff a e s).

(** A history of queries on one object, and the answer to the next one. *)
Fixpoint runq (h : list (query * R)) (e : expr) (s : state e) : state e :=
  match h with
  | nil => s
  | cons (q, x) h' => runq h' e (fst (get q e s x))
  end.
Definition answer (q : query) (e : expr) (s : state e) (x : R) : R := snd (get q e s x).
Definition offset (e : expr) (s : state e) : R := off (top e s).

(** What a user expects of a ramp from (x0,y0) to (x1,y1). *)
Record isRamp (x0 y0 x1 y1 : R) (f : R -> R) : Prop := {
  ramp_before : forall x, x <= x0 -> f x = y0;
  ramp_after : forall x, x1 <= x -> f x = y1;
  ramp_up : y0 <= y1 -> forall a b, a <= b -> f a <= f b;
  ramp_down : y1 <= y0 -> forall a b, a <= b -> f b <= f a;
  ramp_in : forall x, Rmin y0 y1 <= f x <= Rmax y0 y1;
  ramp_cont : forall x, continuity_pt f x }.

