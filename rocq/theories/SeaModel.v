(** Model of the wave spectra and of the configuration of the irregular wave fields
    (environment/ocean/freeSurface/waves: FrWaveSpectrum.cpp, airy/FrAiryIrregularWaveField.cpp,
    airy/FrAiryIrregularOptimWaveField.cpp).  Paths are relative to
    /repo/src/frydom/environment/ocean/freeSurface/waves.  double is modelled by the reals, except in the
    last section, where the bisection is modelled in binary64 with Coq.Floats.SpecFloat.
    mathutils is not in the repository; the contracts used are linspace(a, b, n) (n values with equal steps,
    the value a alone for n = 1), convert_frequency(T, S, RADS) = 2 pi / T, RADS2S(w) = 2 pi / w and
    Normalize_0_2PI.  Logging and console warnings are not modelled.  No proofs in this file. *)
From Coq Require Import Reals List ZArith Floats.SpecFloat.
From Coquelicot Require Import Coquelicot.
From Verif Require Import GeoModel DispModel WavModel.
Import ListNotations.
Open Scope R_scope.

(** ** Outcomes: a value, undefined behaviour (bad index, null pointer), a failed assertion, an exception,
    a loop that has not ended within the fuel *)
Inductive res (A : Type) := Ok (a : A) | Undef | Fails | Throws | Running.
Arguments Ok {A} a. Arguments Undef {A}. Arguments Fails {A}. Arguments Throws {A}. Arguments Running {A}.
Definition rbind {A B : Type} (r : res A) (f : A -> res B) : res B :=
  match r with Ok a => f a | Undef => Undef | Fails => Fails | Throws => Throws | Running => Running end.
Notation "x <<- a ; b" := (rbind a (fun x => b)) (at level 100, a at next level, right associativity).
Definition of_option {A : Type} (o : option A) : res A := match o with Some a => Ok a | None => Undef end.
Definition vat {A : Type} (l : list A) (i : nat) : res A := of_option (nth_error l i).
(** for (i = i0; i < i0 + n; ++i) v.push_back(f(i)) *)
Fixpoint rcollect {A : Type} (f : nat -> res A) (i n : nat) : res (list A) :=
  match n with O => Ok [] | S m => a <<- f i; r <<- rcollect f (S i) m; Ok (a :: r) end.

(** ** Directional models: FrCos2sDirectionalModel (with m_spreading_factor and the cache c_s) and
    FrTestDirectionalModel *)
Inductive dirmodel := Cos2s (m_spreading_factor c_s : R) | DirTest.
(** pow(x, 2 s): for a negative x defined only for an integer exponent; 0 for x = 0 (s > 0) *)
Definition pow2s (x s : R) : res R :=
  if Rlt_dec 0 x then Ok (Rpower x (2 * s))
  else if Req_EM_T x 0 then Ok 0
  else if Req_EM_T (IZR (Int_part (2 * s))) (2 * s) then
         Ok (if Z.even (Int_part (2 * s)) then Rpower (- x) (2 * s) else - Rpower (- x) (2 * s))
  else Undef.
(** EvalCs 94-98, for the function [tgamma] of <cmath> *)
Definition EvalCs (tgamma : R -> R) (s : R) : R :=
  Rpower 2 (2 * s - 1) / PI * (tgamma (s + 1) * tgamma (s + 1)) / tgamma (2 * s + 1).
(** Constructor 75-78 and SetSpreadingFactor 88-92 *)
Definition new_cos2s (tgamma : R -> R) (spreading_factor : R) : dirmodel := Cos2s spreading_factor (EvalCs tgamma spreading_factor).
(** Eval 84-86 and 105-107 *)
Definition dir_eval (m : dirmodel) (theta theta_mean : R) : res R :=
  match m with
  | Cos2s s cs => p <<- pow2s (cos (/ 2 * (theta - theta_mean))) s; Ok (cs * p)
  | DirTest => Ok 1
  end.
(** GetSpreadingFunction 24-36 *)
Fixpoint spreading (m : dirmodel) (thetaVect : list R) (theta_mean : R) : res (list R) :=
  match thetaVect with
  | [] => Ok []
  | t :: r => e <<- dir_eval m t theta_mean; l <<- spreading m r theta_mean; Ok (e :: l)
  end.
(** epsilon of the searches *)
Definition epsilon : R := / 10000000000.
(** The bisection of FrWaveSpectrum::dichotomySearch 298-314 (and, with [ev] = Eval(., theta_mean), of
    FrWaveDirectionalModel::dichotomySearch 44-63) *)
Fixpoint bisect (fuel : nat) (ev : R -> res R) (wmin wmax threshold : R) : res R :=
  match fuel with
  | O => Running
  | S n =>
      if Rlt_dec (epsilon * epsilon) (Rabs (wmin - wmax)) then
        let wresult := (wmin + wmax) / 2 in
        er <<- ev wresult;
        if Rlt_dec (Rabs (er - threshold)) epsilon then Ok wresult
        else
          em <<- ev wmax;
          if Rlt_dec ((em - threshold) * (er - threshold)) 0
          then bisect n ev wresult wmax threshold
          else bisect n ev wmin wresult threshold
      else Throws
  end.
(** GetDirectionBandwidth 38-43 *)
Definition GetDirectionBandwidth (fuel : nat) (m : dirmodel) (theta_mean : R) : res (R * R) :=
  theta_min <<- bisect fuel (fun t => dir_eval m t theta_mean) (theta_mean - PI) theta_mean (1 / 100);
  let Dtheta := theta_mean - theta_min in
  Ok (theta_min, theta_min + 2 * Dtheta).

(** ** Spectra: m_significant_height, m_peak_frequency, m_directional_model *)
Inductive skind := JONSWAP (gamma : R) | PIERSON_MOSKOWITZ | TEST_SPECTRUM.
Record spectrum := SP { sp_kind : skind; sp_hs : R; sp_wp : R; sp_dir : option dirmodel }.
(** Constructors 113-117, 319-324, 369-370; the default one: Hs 3 m, Tp 9 s, gamma 3.3 *)
Definition new_jonswap (hs tp gamma : R) : spectrum := SP (JONSWAP gamma) hs (2 * PI / tp) None.
Definition new_pm (hs tp : R) : spectrum := SP PIERSON_MOSKOWITZ hs (2 * PI / tp) None.
Definition default_spectrum : spectrum := new_jonswap 3 9 (33 / 10).
(** _SIGMA2_1_left, _SIGMA2_1_right *)
Definition SIGMA2_1_left : R := 1 / (7 / 100 * (7 / 100)).
Definition SIGMA2_1_right : R := 1 / (9 / 100 * (9 / 100)).
(** FrJonswapWaveSpectrum::Eval 340-365 *)
Definition jonswap_eval (hs wp gamma w : R) : R :=
  let wp4 := wp * wp * (wp * wp) in
  let w4_1 := / (w * w * w * w) in
  let w5_1 := w4_1 / w in
  if Rlt_dec 0 w then
    let S_w := 3125 / 10000 * (hs * hs) * wp4 * w5_1 * exp (- (125 / 100) * wp4 * w4_1) * (1 - 287 / 1000 * ln gamma) in
    let a := exp (- ((w - wp) * (w - wp)) / (2 * (wp * wp))) in
    let a := if Rle_dec w wp then Rpower a SIGMA2_1_left else Rpower a SIGMA2_1_right in
    S_w * Rpower gamma a
  else 0.
(** FrPiersonMoskowitzWaveSpectrum::Eval 372-382 (at w = 0 the C++ value is not a number) *)
Definition pm_eval (hs wp w : R) : R :=
  let Tz := 2 * PI / wp / (1408 / 1000) in
  let q := 2 * PI / Tz in
  let A := q * q * q * q / (PI * (w * w * w * w)) in
  1 / 4 * A * (hs * hs / w) * exp (- A).
Definition Eval (s : spectrum) (w : R) : R :=
  match sp_kind s with JONSWAP g => jonswap_eval (sp_hs s) (sp_wp s) g w | PIERSON_MOSKOWITZ => pm_eval (sp_hs s) (sp_wp s) w | TEST_SPECTRUM => 1 end.
(** vectorDiscretization 185-209 *)
Definition vectorDiscretization (vect : list R) : res (list R) :=
  match vect with
  | [] => Fails
  | [_] => Ok [1]
  | _ =>
      let Nv := (length vect - 1)%nat in
      v1 <<- vat vect 1; v0 <<- vat vect 0;
      mid <<- (if Nat.ltb 2 Nv then rcollect (fun iv => b <<- vat vect (iv + 1); a <<- vat vect (iv - 1); Ok (/ 2 * (b - a))) 1 (Nv - 1) else Ok []);
      vN <<- vat vect Nv; vM <<- vat vect (Nv - 1);
      Ok ((v1 - v0) :: mid ++ [vN - vM])
  end.
(** GetWaveAmplitudes(frequencies) 211-222 *)
Definition GetWaveAmplitudes1 (s : spectrum) (freqs : list R) : res (list R) :=
  dw <<- vectorDiscretization freqs;
  rcollect (fun i => w <<- vat freqs i; d <<- vat dw i; Ok (sqrt (2 * Eval s w * d))) 0 (length freqs).
(** GetWaveAmplitudes(frequencies, directions) 224-257 *)
Definition GetWaveAmplitudes2 (s : spectrum) (freqs dirs : list R) : res (list (list R)) :=
  let nbDir := length dirs in
  d0 <<- vat dirs 0; dN <<- vat dirs (nbDir - 1);
  let theta_mean := / 2 * (d0 + dN) in
  dir_func <<- match sp_dir s with None => Ok [1] | Some m => spreading m dirs theta_mean end;
  dtheta <<- vectorDiscretization dirs;
  dw <<- vectorDiscretization freqs;
  rcollect (fun idir =>
    rcollect (fun ifreq =>
      w <<- vat freqs ifreq; f <<- vat dir_func idir; dt <<- vat dtheta idir; d <<- vat dw ifreq;
      Ok (sqrt (2 * Eval s w * f * dt * d))) 0 (length freqs)) 0 nbDir.
(** mathutils::linspace *)
Definition linspace (a b : R) (n : nat) : list R := map (fun i => a + INR i * ((b - a) / INR (n - 1))) (seq 0 n).
(** GetWaveAmplitudes(nb_waves, wmin, wmax) 259-271 *)
Definition GetWaveAmplitudesN (s : spectrum) (nb_waves : nat) (wmin wmax : R) : res (list R) :=
  let wVect := linspace wmin wmax nb_waves in
  w1 <<- vat wVect 1; w0 <<- vat wVect 0;
  Ok (map (fun w => sqrt (2 * Eval s w * (w1 - w0))) wVect).
(** GetFrequencyBandwidth 290-296 *)
Definition GetFrequencyBandwidth (fuel : nat) (s : spectrum) : res (R * R) :=
  let threshold := sp_hs s * sp_hs s / 16 * (1 / 100) in
  wmin <<- bisect fuel (fun w => Ok (Eval s w)) (1 / 10000) (sp_wp s) threshold;
  wmax <<- bisect fuel (fun w => Ok (Eval s w)) (sp_wp s) 10 threshold;
  Ok (wmin, wmax).

(** ** FrAiryIrregularWaveField: the members of [iwq] and m_minFreq, m_maxFreq, m_meanDir, m_waveSpectrum,
    m_set_from_file *)
Record iwf := IW { iw_q : iwq; iw_min : R; iw_max : R; iw_mean : R; iw_spec : spectrum; iw_file : bool }.
Definition set_dirs (q : iwq) (n : nat) (l : list R) : iwq := IQ n (iq_nbFreq q) l (iq_freqs q) (iq_ks q) (iq_amp q) (iq_phases q) (iq_vf q) (iq_b q).
Definition set_freqs (q : iwq) (n : nat) (l k : list R) : iwq := IQ (iq_nbDir q) n (iq_dirs q) l k (iq_amp q) (iq_phases q) (iq_vf q) (iq_b q).
Definition set_amp (q : iwq) (a : list (list R)) : iwq := IQ (iq_nbDir q) (iq_nbFreq q) (iq_dirs q) (iq_freqs q) (iq_ks q) a (iq_phases q) (iq_vf q) (iq_b q).
Definition set_phases (q : iwq) (p : list (list R)) : iwq := IQ (iq_nbDir q) (iq_nbFreq q) (iq_dirs q) (iq_freqs q) (iq_ks q) (iq_amp q) p (iq_vf q) (iq_b q).
Definition set_base (q : iwq) (vf : vfactor) (b : wbase) : iwq := IQ (iq_nbDir q) (iq_nbFreq q) (iq_dirs q) (iq_freqs q) (iq_ks q) (iq_amp q) (iq_phases q) vf b.
Definition upd_q (w : iwf) (q : iwq) : iwf := IW q (iw_min w) (iw_max w) (iw_mean w) (iw_spec w) (iw_file w).
(** Constructor 28-37 and the initialisers of the header (c_infinite_depth of the stretching is false) *)
Definition I_make (s : sea) (junk : wbase) : iwf :=
  IW (IQ 1 40 [] [] [] [] [] (VF SNone false) (base_make s junk)) 0 0 0 default_spectrum false.
(** SetWaveFrequencies 39-80 *)
Definition SetWaveFrequencies (fuel : nat) (s : sea) (w : iwf) (minFreq maxFreq : R) (nbFreq : nat) : res iwf :=
  if Rlt_dec 0 minFreq then
    if Rle_dec minFreq maxFreq then
      if Nat.eqb nbFreq 0 then Fails else
      freqs <<- (if Nat.eqb nbFreq 1 then (if Req_EM_T minFreq maxFreq then Ok [minFreq] else Fails) else Ok (linspace minFreq maxFreq nbFreq));
      ks <<- (if b_inf (iq_b (iw_q w)) then Ok (map (fun f => f * f / s_grav s) freqs)
              else match SolveWaveDispersionRelationVect fuel (s_depth s) freqs (s_grav s) with Some l => Ok l | None => Running end);
      let q := set_freqs (iw_q w) nbFreq freqs ks in
      q' <<- match iq_dirs q with [] => Ok q | _ => a <<- GetWaveAmplitudes2 (iw_spec w) freqs (iq_dirs q); Ok (set_amp q a) end;
      Ok (IW q' minFreq maxFreq (iw_mean w) (iw_spec w) (iw_file w))
    else Fails
  else Fails.
(** ComputeWaveDirections 125-151: GetDirectionalModel()->GetType() on a null pointer is undefined *)
Definition ComputeWaveDirections (fuel : nat) (w : iwf) : res iwf :=
  let q := iw_q w in
  match sp_dir (iw_spec w) with
  | None => Undef
  | Some m =>
      dirs <<- match m with
               | Cos2s _ _ => b <<- GetDirectionBandwidth fuel m (iw_mean w); Ok (linspace (fst b) (snd b) (iq_nbDir q))
               | DirTest => Ok (linspace (iw_mean w) (iw_mean w + 1 / 10) (iq_nbDir q))
               end;
      let q := set_dirs q (iq_nbDir q) dirs in
      q' <<- match iq_freqs q with [] => Ok q | _ => a <<- GetWaveAmplitudes2 (iw_spec w) (iq_freqs q) dirs; Ok (set_amp q a) end;
      Ok (upd_q w q')
  end.
(** SetMeanWaveDirectionAngle 82-96 (here the result of Normalize_0_2PI is used) *)
Definition SetMeanWaveDirectionAngle (fuel : nat) (w : iwf) (dirAngle : R) (unit : aunit) (fc : conv) (dc : dconv) : res iwf :=
  let w := IW (iw_q w) (iw_min w) (iw_max w) (wave_angle true dirAngle unit fc dc) (iw_spec w) (iw_file w) in
  match sp_dir (iw_spec w) with None => Ok w | Some _ => ComputeWaveDirections fuel w end.
(** SetDirectionalParameters 105-123 *)
Inductive dirtype := DT_NONE | DT_COS2S | DT_DIRTEST.
Definition SetDirectionalParameters (fuel : nat) (tgamma : R -> R) (w : iwf) (nbDir : nat) (spreadingFactor : R) (t : dirtype) : res iwf :=
  let d := match t with DT_NONE => None | DT_DIRTEST => Some DirTest | DT_COS2S => Some (new_cos2s tgamma spreadingFactor) end in
  let sp := iw_spec w in
  ComputeWaveDirections fuel (IW (set_dirs (iw_q w) nbDir []) (iw_min w) (iw_max w) (iw_mean w) (SP (sp_kind sp) (sp_hs sp) (sp_wp sp) d) (iw_file w)).
(** SetJonswapWaveSpectrum 162-167, SetPiersonMoskovitzWaveSpectrum 169-174 *)
Definition SetSpectrum (w : iwf) (sp : spectrum) : iwf := IW (iw_q w) (iw_min w) (iw_max w) (iw_mean w) sp (iw_file w).
(** GenerateRandomWavePhases 235-255; [rnd i j] are the successive draws of the generator *)
Definition GenerateRandomWavePhases (rnd : nat -> nat -> R) (q : iwq) : iwq :=
  set_phases q (map (fun i => map (fun j => rnd i j) (seq 0 (length (iq_freqs q)))) (seq 0 (length (iq_dirs q)))).
(** Initialize 280-314; [rnd] are the draws of std::random_device *)
Definition I_initialize (fuel : nat) (rnd : nat -> nat -> R) (s : sea) (w : iwf) : res iwf :=
  let b := base_init s (iq_b (iw_q w)) in
  let q := set_base (iw_q w) (VF (vf_kind (iq_vf (iw_q w))) (b_inf b)) b in
  w1 <<- (if iw_file w then Ok (upd_q w q)
          else
            let q := match iq_dirs q with [] => set_dirs q (iq_nbDir q) [iw_mean w] | _ => q end in
            bw <<- (if Req_EM_T (iw_min w) 0 then if Req_EM_T (iw_max w) 0 then GetFrequencyBandwidth fuel (iw_spec w) else Ok (iw_min w, iw_max w) else Ok (iw_min w, iw_max w));
            w' <<- SetWaveFrequencies fuel s (upd_q w q) (fst bw) (snd bw) (iq_nbFreq q);
            Ok (upd_q w' (GenerateRandomWavePhases rnd (iw_q w'))));
  Ok (upd_q w1 (I_update s (iw_q w1) 0)).
(** WriteToJSON 503-520, LoadJSON 522-550 through the document itself; front() of an empty list is undefined *)
Record document := Doc { d_freqs : list R; d_ks : list R; d_dirs : list R; d_mean : R; d_amp : list (list R); d_phases : list (list R) }.
Definition WriteToJSON (w : iwf) : document := Doc (iq_freqs (iw_q w)) (iq_ks (iw_q w)) (iq_dirs (iw_q w)) (iw_mean w) (iq_amp (iw_q w)) (iq_phases (iw_q w)).
Definition LoadJSON (w : iwf) (d : document) : res iwf :=
  let q := iw_q w in
  f0 <<- vat (d_freqs d) 0; fN <<- vat (d_freqs d) (length (d_freqs d) - 1);
  Ok (IW (IQ (length (d_dirs d)) (length (d_freqs d)) (d_dirs d) (d_freqs d) (d_ks d) (d_amp d) (d_phases d) (iq_vf q) (iq_b q))
         f0 fN (d_mean d) (iw_spec w) true).
(** Calls on an irregular field, with the surroundings at the call *)
Inductive iop :=
| IFreq (a b : R) (n : nat) | IMean (a : R) (u : aunit) (fc : conv) (dc : dconv) | IDir (n : nat) (s : R) (t : dirtype) | ISpec (sp : spectrum)
| IStretch (t : STRETCHING_TYPE) | IPhases (rnd : nat -> nat -> R) | IInit (rnd : nat -> nat -> R) | IUpdate (t : R) | ILoad (d : document).
Definition i_op (fuel : nat) (tgamma : R -> R) (w : iwf) (c : sea * iop) : res iwf :=
  let '(s, o) := c in
  match o with
  | IFreq a b n => SetWaveFrequencies fuel s w a b n
  | IMean a u fc dc => SetMeanWaveDirectionAngle fuel w a u fc dc
  | IDir n sf t => SetDirectionalParameters fuel tgamma w n sf t
  | ISpec sp => Ok (SetSpectrum w (SP (sp_kind sp) (sp_hs sp) (sp_wp sp) None))
  | IStretch t => Ok (upd_q w (ISetStretching (iw_q w) t))
  | IPhases rnd => Ok (upd_q w (GenerateRandomWavePhases rnd (iw_q w)))
  | IInit rnd => I_initialize fuel rnd s w
  | IUpdate t => Ok (upd_q w (I_update s (iw_q w) t))
  | ILoad d => LoadJSON w d
  end.
Fixpoint i_run (fuel : nat) (tgamma : R -> R) (w : iwf) (l : list (sea * iop)) : res iwf :=
  match l with [] => Ok w | c :: r => w' <<- i_op fuel tgamma w c; i_run fuel tgamma w' r end.

(** ** airy/FrAiryIrregularOptimWaveField.cpp: the caches c_cosTheta, c_sinTheta, c_AExpJphi, c_expJwt *)
Record iwo := IO { io_w : iwf; io_cos : list R; io_sin : list R; io_aexp : list (list C); io_exp : list C }.
(** InternalUpdate 138-149 *)
Definition IO_internal (o : iwo) : res iwo :=
  let q := iw_q (io_w o) in
  e <<- rcollect (fun i => f <<- vat (iq_freqs q) i; Ok (cexp (- JJ * RtoC f * RtoC (b_time (iq_b q))))%C) 0 (iq_nbFreq q);
  Ok (IO (io_w o) (io_cos o) (io_sin o) (io_aexp o) e).
(** Initialize 87-131: the amplitudes are asked from the spectrum again *)
Definition IO_initialize (fuel : nat) (rnd : nat -> nat -> R) (s : sea) (o : iwo) : res iwo :=
  w <<- I_initialize fuel rnd s (io_w o);
  let q := iw_q w in
  Amplitudes <<- GetWaveAmplitudes2 (iw_spec w) (iq_freqs q) (iq_dirs q);
  cs <<- rcollect (fun idir => d <<- vat (iq_dirs q) idir; Ok (cos d)) 0 (iq_nbDir q);
  sn <<- rcollect (fun idir => d <<- vat (iq_dirs q) idir; Ok (sin d)) 0 (iq_nbDir q);
  ae <<- rcollect (fun idir => rcollect (fun ifreq =>
    ar <<- vat Amplitudes idir; a <<- vat ar ifreq; pr <<- vat (iq_phases q) idir; p <<- vat pr ifreq;
    Ok (RtoC a * cexp (JJ * RtoC p))%C) 0 (iq_nbFreq q)) 0 (iq_nbDir q);
  IO_internal (IO w cs sn ae (io_exp o)).
(** Update is that of FrWaveField, StepFinalize 133-136 *)
Definition IO_update (s : sea) (o : iwo) (t : R) : iwo := IO (upd_q (io_w o) (I_update s (iw_q (io_w o)) t)) (io_cos o) (io_sin o) (io_aexp o) (io_exp o).
Definition IO_finalize (o : iwo) : res iwo := IO_internal o.
(** GetComplexElevation 20-51 *)
Definition IOComplexElevation (o : iwo) (x y : R) (fc : conv) : option (list (list C)) :=
  let q := iw_q (io_w o) in
  let y := flip_in fc y in
  collect (fun idir =>
    c <- at1 (io_cos o) idir; sn <- at1 (io_sin o) idir;
    let kdir := x * c + y * sn in
    collect (fun ifreq =>
      ki <- at1 (iq_ks q) ifreq;
      e <- at1 (io_exp o) ifreq;
      ae <- at2 (io_aexp o) idir ifreq;
      Some (cexp (JJ * RtoC ki * RtoC kdir) * e * ae * RtoC (NWUsign fc) * RtoC (b_ramp (iq_b q)))%C)
      0 (iq_nbFreq q))
    0 (iq_nbDir q).
Definition IOGetElevation (o : iwo) (x y : R) (fc : conv) : option R := t <- IOComplexElevation o x y fc; sum_elevation (iw_q (io_w o)) t.

(** ** The bisection in binary64 (round to nearest even) for the spectrum FrTestWaveSpectrum (Eval = 1) *)
Definition fadd := SFadd 53 1024.
Definition fsub := SFsub 53 1024.
Definition fmul := SFmul 53 1024.
Definition fdiv := SFdiv 53 1024.
(** the double nearest to m 2^e with 53-bit m *)
Definition dbl (m : positive) (e : Z) : spec_float := S754_finite false m e.
Definition f_eps : spec_float := dbl 7737125245533627 (-86). (* 1.E-10 *)
Definition f_two : spec_float := dbl 4503599627370496 (-51).
Definition f_one : spec_float := dbl 4503599627370496 (-52).
(** The state of the loop of dichotomySearch 302-312 and its turns; [None]: the loop has ended *)
Definition turn (ev : spec_float -> spec_float) (threshold : spec_float) (p : spec_float * spec_float) : option (spec_float * spec_float) :=
  let '(wmin, wmax) := p in
  if SFltb (fmul f_eps f_eps) (SFabs (fsub wmin wmax)) then
    let wresult := fdiv (fadd wmin wmax) f_two in
    if SFltb (SFabs (fsub (ev wresult) threshold)) f_eps then None
    else if SFltb (fmul (fsub (ev wmax) threshold) (fsub (ev wresult) threshold)) (S754_zero false)
         then Some (wresult, wmax) else Some (wmin, wresult)
  else None.
Fixpoint turns (n : nat) (ev : spec_float -> spec_float) (threshold : spec_float) (p : spec_float * spec_float) : option (spec_float * spec_float) :=
  match n with O => Some p | S m => match turn ev threshold p with Some p' => turns m ev threshold p' | None => None end end.
