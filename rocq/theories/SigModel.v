(** Model of the sampled-signal code: FrTimeRecorder (utils/FrRecorder.h) and the quadrature of the
    radiation convolution (hydrodynamics/seakeeping/linear/radiation/FrRadiationModel.cpp).
    Samples are real numbers: vectors are recorded and integrated component by component.
    Paths are relative to /repo/src/frydom.  No proofs in this file. *)
From Coq Require Import Reals List.
Import ListNotations.
Open Scope R_scope.

(** ** FrTimeRecorder (utils/FrRecorder.h 39-252) *)
(** Members m_data (boost::circular_buffer, front first, of capacity m_size), m_timeStep, m_lastTime,
    m_prevTime, m_deltaTime *)
Record recorder := Rec { r_cap : nat; r_step : R; r_data : list R; r_last : R; r_prev : R; r_delta : R }.
(** Initialize 147-151: [cap] stands for int(m_timePersistence / m_timeStep), the integer part *)
Definition capacity (persistence step : R) : nat := Z.to_nat (Int_part (persistence / step)).
Definition newRecorder (persistence step : R) : recorder := Rec (capacity persistence step) step nil 0 0 0.
(** Clear 153-157 *)
Definition RClear (r : recorder) : recorder := Rec (r_cap r) (r_step r) nil (r_last r) (r_prev r) (r_delta r).
(** circular_buffer::push_front: the last element is dropped when the buffer is full *)
Definition push_front (cap : nat) (d : R) (l : list R) : list R := firstn cap (d :: l).
(** Interpolate 198-205 *)
Definition Interpolate (front last intTime data time : R) : R :=
  let a := (data - front) / (time - last) in
  let b := (front * time - data * last) / (time - last) in
  a * intTime + b.
(** Record 160-184 *)
Definition Record_ (r : recorder) (time data : R) : recorder :=
  match r_data r with
  | nil => Rec (r_cap r) (r_step r) (push_front (r_cap r) data nil) time time (r_delta r)
  | front :: rest =>
    if Req_EM_T time (r_last r) then r else
    let delta := time - r_prev r in
    if Rlt_dec delta (r_step r) then Rec (r_cap r) (r_step r) (data :: rest) time (r_prev r) delta
    else
      let new_data := Interpolate front (r_last r) (r_prev r + r_step r) data time in
      let prev := r_prev r + r_step r in
      Rec (r_cap r) (r_step r) (push_front (r_cap r) data (new_data :: rest)) time prev (time - prev)
  end.
(** GetTime 211-229 *)
Definition GetTime (r : recorder) : list R :=
  let n := length (r_data r) in
  [0] ++ (if Nat.ltb 1 n then [r_delta r] else nil) ++
  (if Nat.ltb 1 n then map (fun i => r_delta r + INR i * r_step r) (seq 1 (n - 2)) else nil).
(** GetLastTime 232 *)
Definition GetLastTime (r : recorder) : R := r_last r.
(** GetData() 208 *)
Definition GetData (r : recorder) : list R := r_data r.
(** std::lower_bound on a sorted sequence: number of leading elements smaller than t *)
Fixpoint lower_bound (l : list R) (t : R) : nat :=
  match l with nil => 0%nat | x :: l' => if Rlt_dec x t then S (lower_bound l' t) else 0%nat end.
(** GetData(time) 187-195; None: index out of range *)
Definition GetDataAt (r : recorder) (time : R) : option R :=
  let vtime := GetTime r in
  match lower_bound vtime time with
  | 0%nat => None
  | S it =>
    match nth_error vtime it, nth_error vtime (S it), nth_error (r_data r) it, nth_error (r_data r) (S it) with
    | Some t0, Some t1, Some d0, Some d1 =>
      let c0 := (t1 - time) / (t1 - t0) in
      let c1 := (time - t0) / (t1 - t0) in
      Some (d0 * c0 + d1 * c1)
    | _, _, _, _ => None
    end
  end.
(** GetMean 236-246 *)
Definition GetMean (r : recorder) : R :=
  let result := fold_left Rplus (r_data r) 0 in
  match r_data r with nil => result | _ => result / INR (length (r_data r)) end.

(** ** TrapzLoc (FrRadiationModel.cpp 27-57), one component *)
(** Loop 45-49: after iteration i, the pair (dxii, sum) *)
Definition trapz_loop (x y : list R) (n : nat) (dx1 : R) : R * R :=
  fold_left (fun st i =>
      let dxi := fst st in
      let dxii := nth (i + 1) x 0 - nth i x 0 in
      (dxii, snd st + nth i y 0 * (dxi + dxii)))
    (seq 1 (n - 2)) (dx1, 0).
(** None: assert(x.size() == N) fails *)
Definition TrapzLoc (x y : list R) : option R :=
  let N := length y in
  if Nat.leb N 1 then Some 0
  else if Nat.eqb (length x) N then
    let dx1 := nth 1 x 0 - nth 0 x 0 in
    let dxN_1 := nth (N - 1) x 0 - nth (N - 2) x 0 in
    Some ((1/2) * (snd (trapz_loop x y N dx1) + nth 0 y 0 * dx1 + nth (N - 1) y 0 * dxN_1))
  else None.
