(** Model of the Gaussian functions and the truncated normal sampler of include/arc_utilities/arc_helpers.hpp (936-1151), over the
    real numbers: rounding is not modelled; bounds may be infinite. *)
From Coq Require Import Reals Lra.
From Coquelicot Require Import Coquelicot.
From Verif Require Import Base MathModel.
Open Scope R_scope.

(** std::erf. *)
Definition erf (x : R) : R := 2 / sqrt PI * RInt (fun t => exp (- (t * t))) 0 x.
(** 936-938: EvaluateGaussianCDF. *)
Definition gaussian_cdf (mean sd v : R) : R := / 2 * (1 + erf ((v - mean) / sd / sqrt 2)).
(** 940-945: EvaluateGaussianPDF. *)
Definition gaussian_pdf (mean sd v : R) : R :=
  let e := (v - mean) * (v - mean) / (2 * sd * sd) in
  let f := 1 / (sd * sqrt (2 * PI)) in
  f * exp (- e).
(** 947-961: EvaluateTruncatedGaussianCDF. *)
Definition truncated_cdf (dbg : bool) (mean lo hi sd v : R) : outcome R :=
  cassert dbg (Rleb lo hi)
    (if Rleb v lo then Ok 0 else if Rleb hi v then Ok 1
     else let c := gaussian_cdf mean sd lo in
          Ok ((gaussian_cdf mean sd v - c) / (gaussian_cdf mean sd hi - c))).
(** 963-979: EvaluateTruncatedGaussianPDF. *)
Definition truncated_pdf (dbg : bool) (mean lo hi sd v : R) : outcome R :=
  cassert dbg (Rleb lo hi)
    (if Rleb v lo then Ok 0 else if Rleb hi v then Ok 0
     else Ok (gaussian_pdf mean sd v / (gaussian_cdf mean sd hi - gaussian_cdf mean sd lo))).
(** 981-991: IntegrateGaussian. *)
Definition integrate_gaussian (dbg : bool) (mean sd a b : R) : outcome R :=
  cassert dbg (Rleb a b) (Ok (gaussian_cdf mean sd b - gaussian_cdf mean sd a)).
(** 993-1005: IntegrateTruncatedGaussian. *)
Definition integrate_truncated (dbg : bool) (mean lo hi sd a b : R) : outcome R :=
  cassert dbg (Rleb lo hi) (cassert dbg (Rleb a b)
    (let! x := truncated_cdf dbg mean lo hi sd a in
     let! y := truncated_cdf dbg mean lo hi sd b in Ok (y - x))).

(** ** TruncatedNormalDistribution *)
(** A bound that may be infinite. *)
Inductive bound := Fin (r : R) | PInf | NInf.
Definition ble (x y : bound) : Prop :=
  match x, y with Fin a, Fin b => a <= b | NInf, _ | _, PInf => True | _, _ => False end.
Definition bleb (x y : bound) : bool :=
  match x, y with Fin a, Fin b => Rleb a b | NInf, _ | _, PInf => true | _, _ => false end.
Definition bltb (x y : bound) : bool := negb (bleb y x).
Definition bneg (x : bound) : bound := match x with Fin a => Fin (- a) | PInf => NInf | NInf => PInf end.
(** (bound - mean) / stddev. *)
Definition standardize (mean sd : R) (x : bound) : bound :=
  match x with Fin a => Fin ((a - mean) / sd) | PInf => if Rltb 0 sd then PInf else NInf | NInf => if Rltb 0 sd then NInf else PInf end.
Inductive kind := Type1 | Type2 | Type3 | Type4 | NoCase.
(** 1021-1026: CheckSimple, for finite bounds. *)
Definition check_simple (lo hi : R) : bool :=
  let val1 := 2 * sqrt (exp 1) / (lo + sqrt (lo * lo + 4)) in
  let val2 := exp ((lo * lo - lo * sqrt (lo * lo + 4)) / 4) in
  Rltb (lo + val1 * val2) hi.
(** The members set by the constructor; [r_lo], [r_hi] are the parameters of uniform_range_dist_. *)
Record trunc := Trunc { t_mean : R; t_sd : R; t_lo : bound; t_hi : bound; t_case : kind; r_lo : bound; r_hi : bound }.
(** 1106-1145: the constructor.  With a standard deviation of zero the standardized bounds stay uninitialised and are not read; 0 here. *)
Definition trunc_make (dbg : bool) (mean sd : R) (lower upper : bound) : outcome trunc :=
  if Reqb (Rabs sd) 0 then Ok (Trunc mean sd (Fin 0) (Fin 0) NoCase lower upper)
  else
    let lo := standardize mean sd lower in
    let hi := standardize mean sd upper in
    let c := if bleb (Fin 0) hi && bleb lo (Fin 0) then Type1 else NoCase in
    let c := if bltb (Fin 0) lo && match hi with PInf => true | _ => false end then Type2 else c in
    let '(lo, hi, sd, c) :=
      if bltb hi (Fin 0) && match lo with NInf => true | _ => false end then (bneg hi, PInf, - sd, Type2) else (lo, hi, sd, c) in
    let c := if bltb hi (Fin 0) || bltb (Fin 0) lo then
               match lo, hi with
               | NInf, _ | _, PInf => c
               | Fin l, Fin h => if check_simple l h then Type3 else Type4
               | _, _ => Type4
               end
             else c in
    cassert dbg (match c with NoCase => false | _ => true end) (Ok (Trunc mean sd lo hi c lower upper)).

(** The generator: what the distributions draw, in turn.  A draw of a kind the code does not ask for next is skipped over by the
    loops as an exhausted stream ([NoFuel]). *)
Inductive draw := Normal (x : R) | Expo (e : R) | Unit (u : R) | Range (z : R).
(** What the standard distributions promise: an exponential draw is nonnegative, a unit draw is in [0, 1), a range draw is in
    [lower, upper). *)
Definition draw_ok (t : trunc) (d : draw) : Prop :=
  match d with
  | Normal _ => True
  | Expo e => 0 <= e
  | Unit u => 0 <= u < 1
  | Range z => ble (r_lo t) (Fin z) /\ bltb (Fin z) (r_hi t) = true
  end.
(** 1030-1038: NaiveAcceptReject. *)
Fixpoint naive (lo hi : bound) (ds : list draw) : outcome (R * list draw) :=
  match ds with
  | Normal x :: ds' => if bleb (Fin x) hi && bleb lo (Fin x) then Ok (x, ds') else naive lo hi ds'
  | _ => NoFuel
  end.
(** 1042-1056: SimpleAcceptReject, for a finite lower bound. *)
Fixpoint simple (lo : R) (ds : list draw) : outcome (R * list draw) :=
  let alpha := (lo + sqrt (lo * lo + 4)) / 2 in
  match ds with
  | Expo e :: Unit u :: ds' =>
      let z := lo + e / alpha in
      let rho := exp (- ((alpha - z) * (alpha - z)) / 2) in
      if Rleb u rho then Ok (z, ds') else simple lo ds'
  | _ => NoFuel
  end.
(** 1060-1078: ComplexAcceptReject, for finite bounds. *)
Fixpoint complex (lo hi : R) (ds : list draw) : outcome (R * list draw) :=
  match ds with
  | Range z :: Unit u :: ds' =>
      let rho := if Rltb 0 lo then exp ((lo * lo - z * z) / 2)
                 else if Rltb hi 0 then exp ((hi * hi - z * z) / 2)
                 else if Rltb 0 hi && Rltb lo 0 then exp (- (z * z) / 2) else 0 in
      if Rleb u rho then Ok (z, ds') else complex lo hi ds'
  | _ => NoFuel
  end.
(** 1089-1095: the loop of the third case. *)
Fixpoint simple_below (fuel : nat) (lo : R) (hi : bound) (ds : list draw) : outcome (R * list draw) :=
  match fuel with
  | O => NoFuel
  | S k => let! (z, ds') := simple lo ds in if bleb (Fin z) hi then Ok (z, ds') else simple_below k lo hi ds'
  end.
(** 1081-1103: Sample.  With NDEBUG an infinite bound where a finite one is expected gives NaN, which is not modelled ([UB]); the
    constructor never sets it up (Type2 and Type3 have a finite lower bound, Type4 two finite ones) except from equal infinite
    bounds. *)
Definition sample (t : trunc) (ds : list draw) : outcome (R * list draw) :=
  let scale (r : R * list draw) := (t_mean t + t_sd t * fst r, snd r) in
  match t_case t with
  | Type1 => let! r := naive (t_lo t) (t_hi t) ds in Ok (scale r)
  | Type2 => match t_lo t with Fin l => let! r := simple l ds in Ok (scale r) | _ => UB end
  | Type3 => match t_lo t with Fin l => let! r := simple_below (length ds) l (t_hi t) ds in Ok (scale r) | _ => UB end
  | Type4 => match t_lo t, t_hi t with Fin l, Fin h => let! r := complex l h ds in Ok (scale r) | _, _ => UB end
  | NoCase => Ok (t_mean t, ds)
  end.
