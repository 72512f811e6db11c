(** Model of the mathematical function objects of FRyDoM
    (src/frydom/core/math/functions).  [double] is modelled by [R].
    A function object is a pair of a static shape [expr] (the dynamic types of the
    nodes and their immutable parameters) and a mutable [state] (one cell of mutable
    members per node).  No proofs in this file. *)
From Coq Require Import Reals List.
Open Scope R_scope.

(** ** libm calls that the standard library of Coq does not provide directly *)

(** std::acosh, for u >= 1. Out of that domain libm returns NaN: the value here is
    then meaningless and excluded by the [regular] predicates of the theorems. *)
Definition c_acosh (u : R) : R := ln (u + sqrt (u * u - 1)).
(** std::atanh, for |u| < 1. *)
Definition c_atanh (u : R) : R := / 2 * ln ((1 + u) / (1 - u)).
(** std::pow: positive base, or any base with an integral exponent
    (otherwise NaN in libm; 0 here, excluded by the theorems). *)
Definition c_pow (u p : R) : R :=
  if Rlt_dec 0 u then Rpower u p
  else if Req_EM_T p (IZR (Int_part p)) then powerRZ u (Int_part p) else 0.
(** std::copysign(1., u); signed zeros are not modelled (copysign(1,-0.) = -1). *)
Definition c_sign (u : R) : R := if Rle_dec 0 u then 1 else -1.

(** ** Node kinds *)

(** One-operand nodes.
    [UNeg]/[UPos]: FrUnaryOpFunction (FrFunctionBase.cpp 347-378).
    [UCos].. [UATan]: lib/FrTrigonometricFunctions.cpp.
    [UCosh].. [UATanh]: lib/FrHyperbolicTrigonometricFunctions.cpp.
    [USqrt], [UAbs]: lib/FrMiscFunctions.cpp.  [UPow p]: lib/FrPowFunction.cpp.
    [UWrap]: nodes whose Eval copies the three values of m_function:
    FrLinearFunction (lib/FrLinearFunction.cpp 54-61), FrLinearRampFunction
    (ramp/FrLinearRampFunction.cpp 66-75), FrCosRampFunction (ramp/FrCosRampFunction.cpp 75-84). *)
Inductive uop :=
  UNeg | UPos | UCos | USin | UTan | UACos | UASin | UATan
| UCosh | USinh | UTanh | UACosh | UASinh | UATanh
| USqrt | UAbs | UPow (p : R) | UWrap.

(** Two-operand nodes (FrFunctionBase.cpp 391-507); [BComp f g] is [f << g]. *)
Inductive bop := BAdd | BSub | BMul | BDiv | BComp.

(** lib/FrClampFunction.cpp: clamp_after / clamp_before *)
Inductive side := After | Before.

Inductive expr :=
| Var                                    (* FrVarXFunction, FrFunctionBase.cpp 269-292 *)
| Cst (c : R)                            (* FrConstantFunction, FrFunctionBase.cpp 307-340 *)
| Un (u : uop) (f : expr)
| Bin (b : bop) (f g : expr)
| Clamp (d : side) (xc : R) (f : expr).

(** ** Mutable members: m_xOffset, c_x, c_y, c_y_dx, c_y_dxdx
    (FrFunctionBase.h, protected members).  c_x = INFINITY is [None]. *)
Record cell := mkCell { off : R; cx : option R; cy : R; cd : R; cdd : R }.

(** Default member initialisers.  c_y.. are uninitialised in C++; they are never read
    while c_x = INFINITY (this is part of what the proofs establish). *)
Definition fresh : cell := mkCell 0 None 0 0 0.

(** One cell per node. *)
Fixpoint state (e : expr) : Type :=
  match e with
  | Var | Cst _ => cell
  | Un _ f => (cell * state f)%type
  | Clamp _ _ f => (cell * state f)%type
  | Bin _ f g => (cell * (state f * state g))%type
  end.

Definition top (e : expr) : state e -> cell :=
  match e return state e -> cell with
  | Var => fun c => c
  | Cst _ => fun c => c
  | Un _ _ => fst
  | Clamp _ _ _ => fst
  | Bin _ _ _ => fst
  end.

Definition setTop (e : expr) : state e -> cell -> state e :=
  match e return state e -> cell -> state e with
  | Var => fun _ c => c
  | Cst _ => fun _ c => c
  | Un _ _ => fun s c => (c, snd s)
  | Clamp _ _ _ => fun s c => (c, snd s)
  | Bin _ _ _ => fun s c => (c, snd s)
  end.

(** FrFunctionBase::IsEval, FrFunctionBase.h 203-205: c_x == x *)
Definition isEval (c : cell) (x : R) : bool :=
  match cx c with
  | Some x0 => if Req_EM_T x0 x then true else false
  | None => false
  end.

Definition store (c : cell) (x : R) (v : R * R * R) : cell :=
  mkCell (off c) (Some x) (fst (fst v)) (snd (fst v)) (snd v).

(** ** Formulas of the one-operand nodes: from (u, u_dx, u_dxdx) to (c_y, c_y_dx, c_y_dxdx) *)
Definition unF (o : uop) (v : R * R * R) : R * R * R :=
  let u := fst (fst v) in let u' := snd (fst v) in let u'' := snd v in
  match o with
  | UNeg => (- u, - u', - u'')                                    (* FrFunctionBase.cpp 369-372 *)
  | UPos => (u, u', u'')                                          (* 373-377 *)
  | UWrap => (u, u', u'')
  | UCos => (cos u, - u' * sin u, - u'' * sin u - u' * u' * cos u)     (* FrTrigonometricFunctions.cpp 39-43 *)
  | USin => (sin u, u' * cos u, u'' * cos u - u' * u' * sin u)         (* 81-85 *)
  | UTan => let t := tan u in let tmp := 1 + t * t in
            (t, u' * tmp, u'' * tmp + 2 * u' * t * (u' * tmp))         (* 123-128 *)
  | UACos => let tmp := 1 - u * u in
             (acos u, - u' / sqrt tmp,
              - u'' / sqrt tmp - u * u' * u' / c_pow tmp (3 / 2))          (* 166-171 *)
  | UASin => let tmp := 1 - u * u in
             (asin u, u' / sqrt tmp,
              u'' / sqrt tmp + u * u' * u' / c_pow tmp (3 / 2))            (* 209-214 *)
  | UATan => let tmp := 1 + u * u in
             (atan u, u' / tmp, u'' / tmp - 2 * u' * u' * u / (tmp * tmp))   (* 252-256 *)
  | UCosh => (cosh u, u' * sinh u, u'' * sinh u + u' * u' * cosh u)    (* FrHyperbolic...cpp 40-45 *)
  | USinh => (sinh u, u' * cosh u, u'' * cosh u + u' * u' * sinh u)    (* 83-88 *)
  | UTanh => let th := tanh u in let tmp := 1 - th * th in
             (th, u' * tmp, u'' * tmp - 2 * u' * th * (u' * tmp))      (* 128-133 *)
  | UACosh => let tmp := u * u - 1 in
              (c_acosh u, u' / sqrt tmp,
               u'' / sqrt tmp - u' * u' * u / c_pow tmp (3 / 2))           (* 171-176 *)
  | UASinh => let tmp := u * u + 1 in
              (c_acosh u, u' / sqrt tmp,                               (* 214-219: std::acosh, line 217 *)
               u'' / sqrt tmp - u' * u' * u / c_pow tmp (3 / 2))
  | UATanh => let tmp := 1 - u * u in
              (c_atanh u, u' / tmp, u'' / tmp + 2 * u' * u' * u / (tmp * tmp))  (* 257-261 *)
  | USqrt => (sqrt u, / 2 * u' / sqrt u,
              / 2 * u'' / sqrt u - / 4 * u' * u' / c_pow u (3 / 2))       (* FrMiscFunctions.cpp 41-45 *)
  | UAbs => (Rabs u, u' * c_sign u, u'' * c_sign u)                    (* 83-87 *)
  | UPow p => (c_pow u p, p * u' * c_pow u (p - 1),
               p * (u'' * c_pow u (p - 1) + (p - 1) * u' * u' * c_pow u (p - 2)))  (* FrPowFunction.cpp 43-48 *)
  end.

(** Formulas of Add 407-409, Sub 429-431, Mul 453-455, Div 477-479
    ([BComp] is handled in [eval]). *)
Definition binF (o : bop) (a b : R * R * R) : R * R * R :=
  let u := fst (fst a) in let u' := snd (fst a) in let u'' := snd a in
  let v := fst (fst b) in let v' := snd (fst b) in let v'' := snd b in
  match o with
  | BAdd => (u + v, u' + v', u'' + v'')
  | BSub => (u - v, u' - v', u'' - v'')
  | BMul => (u * v, u' * v + v' * u, u'' * v + 2 * u' * v' + v'' * u)
  | BDiv => let y := u / v in let y' := (u' * v - v' * u) / (v * v) in
            (y, y', (u'' - 2 * y' * v' - y * v'') / v)
  | BComp => (0, 0, 0) (* not used *)
  end.

(** ** The query protocol of the base class.
    Get_y / Get_y_dx / Get_y_dxdx (FrFunctionBase.cpp 88-101): Eval(x - m_xOffset), then read one member. *)
Inductive query := QY | QD | QDD.
Definition readq (q : query) (c : cell) : R :=
  match q with QY => cy c | QD => cd c | QDD => cdd c end.

Section Protocol.
  Variable S : Type.
  Variable ev : S -> R -> S.
  Variable tp : S -> cell.
  Definition ask (q : query) (s : S) (x : R) : S * R :=
    let s' := ev s (x - off (tp s)) in (s', readq q (tp s')).
  (** the three successive calls Get_y(x), Get_y_dx(x), Get_y_dxdx(x) made by most Eval bodies *)
  Definition ask3 (s : S) (x : R) : S * (R * R * R) :=
    let r1 := ask QY s x in
    let r2 := ask QD (fst r1) x in
    let r3 := ask QDD (fst r2) x in
    (fst r3, (snd r1, snd r2, snd r3)).
End Protocol.
Arguments ask {S}. Arguments ask3 {S}.

Definition inClamp (d : side) (xc x : R) : bool :=
  match d with
  | After => if Rle_dec xc x then true else false     (* x >= m_xClamp, FrClampFunction.cpp 40 *)
  | Before => if Rle_dec x xc then true else false    (* x <= m_xClamp, FrClampFunction.cpp 74 *)
  end.

(** Eval of every node. For two-operand nodes the interleaving of the calls on the two operands
    (u, v, u_dx, v_dx, ..: FrFunctionBase.h 344-353) is replaced by the three calls on the left
    operand then the three on the right one; the operands are distinct objects (Clone). *)
Fixpoint eval (e : expr) : state e -> R -> state e :=
  match e return state e -> R -> state e with
  | Var => fun c x => mkCell (off c) (Some x) x 1 0           (* FrFunctionBase.cpp 287-292 *)
  | Cst _ => fun c _ => c                                     (* 340 *)
  | Un o f => fun s x =>
      if isEval (fst s) x then s
      else let r := ask3 (eval f) (top f) (snd s) x in
           (store (fst s) x (unF o (snd r)), fst r)
  | Bin BComp f g => fun s x =>                               (* 496-507 *)
      if isEval (fst s) x then s
      else
        let rg := ask3 (eval g) (top g) (snd (snd s)) x in
        let v := fst (fst (snd rg)) in let v' := snd (fst (snd rg)) in let v'' := snd (snd rg) in
        let r1 := ask (eval f) (top f) QY (fst (snd s)) v in
        let r2 := ask (eval f) (top f) QD (fst r1) v in
        let r3 := ask (eval f) (top f) QD (fst r2) v in
        let r4 := ask (eval f) (top f) QDD (fst r3) v in
        (store (fst s) x (snd r1, v' * snd r2, v'' * snd r3 + v' * v' * snd r4), (fst r4, fst rg))
  | Bin o f g => fun s x =>
      if isEval (fst s) x then s
      else
        let rf := ask3 (eval f) (top f) (fst (snd s)) x in
        let rg := ask3 (eval g) (top g) (snd (snd s)) x in
        (store (fst s) x (binF o (snd rf) (snd rg)), (fst rf, fst rg))
  | Clamp d xc f => fun s x =>                                (* FrClampFunction.cpp 38-56, 72-90 *)
      if inClamp d xc x then
        if isEval (fst s) xc then s
        else let r := ask (eval f) (top f) QY (snd s) xc in
             (store (fst s) xc (snd r, 0, 0), fst r)
      else if isEval (fst s) x then s
      else let r := ask3 (eval f) (top f) (snd s) x in
           (store (fst s) x (snd r), fst r)
  end.

(** A public query on an object. *)
Definition get (q : query) (e : expr) (s : state e) (x : R) : state e * R :=
  ask (eval e) (top e) q s x.

(** FrFunctionBase copy constructor (FrFunctionBase.cpp 58-70) as used by every Clone():
    the cached values and the inner functions are copied, m_xOffset is not. *)
Definition cloneCell (c : cell) : cell := mkCell 0 (cx c) (cy c) (cd c) (cdd c).
Fixpoint clone (e : expr) : state e -> state e :=
  match e return state e -> state e with
  | Var => cloneCell
  | Cst _ => cloneCell
  | Un _ f => fun s => (cloneCell (fst s), clone f (snd s))
  | Clamp _ _ f => fun s => (cloneCell (fst s), clone f (snd s))
  | Bin _ f g => fun s => (cloneCell (fst s), (clone f (fst (snd s)), clone g (snd (snd s))))
  end.

(** SetXOffset, FrFunctionBase.cpp 80-82 *)
Definition setOff (a : R) (e : expr) (s : state e) : state e :=
  setTop e s (let c := top e s in mkCell a (cx c) (cy c) (cd c) (cdd c)).

(** Constructors. *)
Definition newVar : state Var := fresh.                                   (* 269-271 *)
Definition newCst (k : R) : state (Cst k) := mkCell 0 None k 0 0.          (* 307-312 *)
Definition newUn (o : uop) (f : expr) (s : state f) : state (Un o f) := (fresh, clone f s).  (* 347-350, lib *)
Definition newBin (o : bop) (f g : expr) (s : state f) (t : state g) : state (Bin o f g) :=
  (fresh, (clone f s, clone g t)).                                        (* 381-384 *)
(** The clamp constructor (FrClampFunction.cpp 11-14) initialises the base class part with a copy of the
    clamped function, cached values included. *)
Definition newClamp (d : side) (xc : R) (f : expr) (s : state f) : state (Clamp d xc f) :=
  (cloneCell (top f s), clone f s).

(** Objects reachable through the public API: construction from reachable objects, copy, queries in any
    order, SetXOffset. *)
Inductive reach : forall e, state e -> Prop :=
| r_var : reach Var newVar
| r_cst k : reach (Cst k) (newCst k)
| r_un o f s : reach f s -> reach (Un o f) (newUn o f s)
| r_bin o f g s t : reach f s -> reach g t -> reach (Bin o f g) (newBin o f g s t)
| r_clamp d xc f s : reach f s -> reach (Clamp d xc f) (newClamp d xc f s)
| r_copy e s : reach e s -> reach e (clone e s)
| r_query q e s x : reach e s -> reach e (fst (get q e s x))
| r_off a e s : reach e s -> reach e (setOff a e s).

(** ** Setters that mutate a parameter without touching the cached values.
    FrPowFunction::Set (FrPowFunction.cpp 25-27), FrClampFunction::Set (FrClampFunction.cpp 20-22). *)
Definition setPow (p p' : R) (f : expr) (s : state (Un (UPow p) f)) : state (Un (UPow p') f) := s.
Definition setClamp (d : side) (xc xc' : R) (f : expr) (s : state (Clamp d xc f)) : state (Clamp d xc' f) := s.
(** SetByTwoPoints of the ramps (FrLinearRampFunction.cpp 33-45, FrCosRampFunction.cpp 38-52) replaces
    m_function by a new object and keeps the ramp's own cached values. *)
Definition setInner (o : uop) (f f' : expr) (s : state (Un o f)) (t : state f') : state (Un o f') :=
  (fst s, clone f' t).
(** FrConstantFunction::Set, FrFunctionBase.cpp 320-322 *)
Definition setCst (k k' : R) (s : state (Cst k)) : state (Cst k') :=
  mkCell (off s) (cx s) k' (cd s) (cdd s).

(** operator+= and friends (FrFunctionBase.cpp 205-235): m_function = Op( *m_function, other).Clone().
    [None] is the null dereference for leaf objects (m_function = nullptr). *)
Definition compound (b : bop) (e : expr) (s : state e) (g : expr) (t : state g)
  : option { e' : expr & state e' } :=
  match e return state e -> option { e' : expr & state e' } with
  | Var => fun _ => None
  | Cst _ => fun _ => None
  | Un o f => fun s => Some (existT state (Un o (Bin b f g)) (fst s, clone (Bin b f g) (newBin b f g (snd s) t)))
  | Bin o f h => fun s =>
      Some (existT state (Bin o (Bin b f g) h)
              (fst s, (clone (Bin b f g) (newBin b f g (fst (snd s)) t), snd (snd s))))
  | Clamp d xc f => fun s =>
      Some (existT state (Clamp d xc (Bin b f g)) (fst s, clone (Bin b f g) (newBin b f g (snd s) t)))
  end s.

(** ** Ramps *)
(** FrLinearRampFunction::SetByTwoPoints: the inner function. *)
Definition linRampInner (x0 y0 x1 y1 : R) : expr :=
  let slope := (y1 - y0) / (x1 - x0) in
  let intercept := y0 - slope * x0 in
  Clamp After x1 (Clamp Before x0 (Bin BAdd (Bin BMul (Cst slope) Var) (Cst intercept))).
Definition linRamp (x0 y0 x1 y1 : R) : expr := Un UWrap (linRampInner x0 y0 x1 y1).
(** FrCosRampFunction::SetByTwoPoints *)
Definition cosRampInner (x0 y0 x1 y1 : R) : expr :=
  let amplitude := / 2 * (y1 - y0) in
  let w := PI / (x1 - x0) in
  Clamp After x1 (Clamp Before x0
    (Bin BAdd (Cst y0) (Bin BMul (Cst amplitude)
       (Bin BSub (Cst 1) (Un UCos (Bin BMul (Cst w) (Bin BSub Var (Cst x0)))))))).
Definition cosRamp (x0 y0 x1 y1 : R) : expr := Un UWrap (cosRampInner x0 y0 x1 y1).
(** FrLinearFunction constructor (FrLinearFunction.cpp 11-13) *)
Definition linFun (intercept slope : R) : expr :=
  Un UWrap (Bin BAdd (Bin BMul (Cst slope) Var) (Cst intercept)).

(** FrLinearFunction with its members m_intercept, m_slope: the setters 24-48 write the members only. *)
Record linObj := mkLin { l_int : R; l_slope : R; l_expr : expr; l_state : state l_expr }.
Definition linSet (i k : R) (o : linObj) : linObj := mkLin i k (l_expr o) (l_state o).
Definition linSetSlope (k : R) (o : linObj) : linObj := linSet (l_int o) k o.
Definition linSetIntercept (i : R) (o : linObj) : linObj := linSet i (l_slope o) o.
Definition linSetByTwoPoints (x0 y0 x1 y1 : R) (o : linObj) : linObj :=
  let k := (y1 - y0) / (x1 - x0) in linSet (y0 - k * x0) k o.
(** GetSlope 33, GetIntercept 41 *)
Definition linGetSlope (o : linObj) : R := l_slope o.
Definition linGetIntercept (o : linObj) : R := l_int o.
Definition linNew (i k : R) : linObj :=
  mkLin i k (linFun i k)
    (newUn UWrap _ (newBin BAdd _ _ (newBin BMul _ _ (newCst k) newVar) (newCst i))).
Definition linGet (q : query) (o : linObj) (x : R) : linObj * R :=
  let r := get q (l_expr o) (l_state o) x in (mkLin (l_int o) (l_slope o) (l_expr o) (fst r), snd r).

(** ** FrSaturateFunction (lib/FrSaturateFunction.{h,cpp}).  Bounds are extended reals: the defaults of the
    header (17-19) are m_ymin = +INFINITY, m_ymax = -INFINITY.  Values are extended reals as well. *)
Inductive ext := MInf | Fin (r : R) | PInf.
Definition ext_leb (a b : ext) : bool :=
  match a, b with
  | MInf, _ => true | _, PInf => true
  | Fin x, Fin y => if Rle_dec x y then true else false
  | _, _ => false
  end.
Record satObj := mkSat { s_min : ext; s_max : ext; s_expr : expr; s_state : state s_expr }.
Definition satNew (f : expr) (s : state f) : satObj := mkSat PInf MInf f (clone f s).
Definition satSetYMin (m : R) (o : satObj) : satObj := mkSat (Fin m) (s_max o) (s_expr o) (s_state o).
Definition satSetYMax (m : R) (o : satObj) : satObj := mkSat (s_min o) (Fin m) (s_expr o) (s_state o).
(** Eval 38-58, result (c_y, c_y_dx, c_y_dxdx); m_xOffset of the saturate object itself is 0. *)
Definition satEval (o : satObj) (x : R) : satObj * (ext * R * R) :=
  let r := ask3 (eval (s_expr o)) (top (s_expr o)) (s_state o) x in
  let o' := mkSat (s_min o) (s_max o) (s_expr o) (fst r) in
  let '(y, d, dd) := (Fin (fst (fst (snd r))), snd (fst (snd r)), snd (snd r)) in
  let '(y, d, dd) := if ext_leb y (s_min o) then (s_min o, 0, 0) else (y, d, dd) in
  let '(y, d, dd) := if ext_leb (s_max o) y then (s_max o, 0, 0) else (y, d, dd) in
  (o', (y, d, dd)).
Definition saturate_high (f : expr) (s : state f) (ymax : R) := satSetYMax ymax (satNew f s).
Definition saturate_low (f : expr) (s : state f) (ymin : R) := satSetYMin ymin (satNew f s).
Definition saturate_both (f : expr) (s : state f) (ymin ymax : R) := satSetYMax ymax (satSetYMin ymin (satNew f s)).

(** ** FrTanhRampFunction (ramp/FrTanhRampFunction.cpp 11-87) *)
Record tanhObj := mkTanh { t_off : R; t_w : R; t_h : R; t_y : R; t_a : R; t_cell : option R * (R * R * R) }.
(** Eval 58-87 : the two early branches assign c_y without c_x. *)
Definition tanhEval (o : tanhObj) (x : R) : tanhObj :=
  let put c := mkTanh (t_off o) (t_w o) (t_h o) (t_y o) (t_a o) c in
  if Rle_dec x (t_off o) then put (fst (t_cell o), (t_y o, 0, 0))
  else if Rle_dec (t_off o + t_w o) x then put (fst (t_cell o), (t_y o + t_h o, 0, 0))
  else match fst (t_cell o) with
       | Some x0 => if Req_EM_T x0 x then o else
           let alpha := 2 * t_a o * x / t_w o - t_a o in
           put (Some x, (/ 2 * t_h o * (1 + tanh alpha) + t_y o, (t_h o * t_a o / t_w o) / (cosh alpha * cosh alpha), 0))
       | None =>
           let alpha := 2 * t_a o * x / t_w o - t_a o in
           put (Some x, (/ 2 * t_h o * (1 + tanh alpha) + t_y o, (t_h o * t_a o / t_w o) / (cosh alpha * cosh alpha), 0))
       end.
(** Get_y with the base class protocol: Eval(x - m_xOffset). *)
Definition tanhGet (o : tanhObj) (x : R) : tanhObj * R :=
  let o' := tanhEval o (x - t_off o) in (o', fst (fst (snd (t_cell o')))).
(** SetByTwoPoints 43-48 on an object of tolerance tol (ComputeA 50-52). *)
Definition tanhNew (tol x0 y0 x1 y1 : R) : tanhObj :=
  mkTanh x0 (x1 - x0) (y1 - y0) y0 (/ 2 * ln ((1 - tol) / tol)) (None, (0, 0, 0)).
