(** Model of the parametric equaliser design: src/librbbl/parametric_iir_coefficient.{hpp,cpp}
    and src/librbbl/parametric_iir_coefficient_calculator.cpp, with
    src/libefl/db_linear_conversion.hpp.

    The coefficient type is Coq's type of real numbers, i.e. rounding is not modelled.  The
    JSON/XML readers and writers are not modelled. *)
From Verif Require Import Base BiquadModel.
From Coq Require Import Reals.
Local Open Scope R_scope.

(** ParametricIirCoefficientBase::Type, parametric_iir_coefficient.hpp 23-33 *)
Inductive eq_type := lowpass | highpass | bandpass | bandstop | highshelf | lowshelf | peak | allpass.

(** ParametricIirCoefficient, parametric_iir_coefficient.hpp 126-144.  The setters (cpp
    120-142) and the constructor (106-117) store their arguments unchecked. *)
Record iir_param := MkParam { p_type : eq_type; p_frequency : R; p_quality : R; p_gain : R }.

(** default constructor, parametric_iir_coefficient.cpp 92-99 *)
Definition default_param : iir_param := MkParam allpass 1 1 0.

(** dB2linear, db_linear_conversion.hpp 26-30 *)
Definition dB2linear (dB : R) : R := Rpower 10 (5 / 100 * dB).

(** BiquadCoefficient(), biquad_coefficient.hpp 38-42 *)
Definition flat : coefficient R := MkCoeff 1 0 0 0 0.

(** calculateIirCoefficients, parametric_iir_coefficient_calculator.cpp 44-191 *)
Definition calculateIirCoefficients (param : iir_param) (samplingFrequency : R) : coefficient R :=
  let w0 := 2 * PI * p_frequency param / samplingFrequency in
  let alpha := sin w0 / (2 * p_quality param) in
  let cw0 := cos w0 in
  match p_type param with
  | lowpass =>                                                          (* 56-71 *)
      let a0 := 1 + alpha in
      let b0 := (1 - cw0) / (2 * a0) in
      MkCoeff b0 ((1 - cw0) / a0) b0 ((-2 * cw0) / a0) ((1 - alpha) / a0)
  | highpass =>                                                         (* 72-87 *)
      let a0 := 1 + alpha in
      let b0 := (1 + cw0) / (2 * a0) in
      MkCoeff b0 (- (1 + cw0) / a0) b0 ((-2 * cw0) / a0) ((1 - alpha) / a0)
  | bandpass =>                                                         (* 88-104 *)
      let a0 := 1 + alpha in
      let b0 := alpha / a0 in
      MkCoeff b0 0 (- b0) ((-2 * cw0) / a0) ((1 - alpha) / a0)
  | bandstop =>                                                         (* 105-120 *)
      let a0 := 1 + alpha in
      let b0 := 1 / a0 in
      MkCoeff b0 ((-2 * cw0) / a0) b0 ((-2 * cw0) / a0) ((1 - alpha) / a0)
  | allpass =>                                                          (* 121-136 *)
      let a0 := 1 + alpha in
      let b0 := (1 - alpha) / a0 in
      let b1 := (-2 * cw0) / a0 in
      MkCoeff b0 b1 1 b1 b0
  | peak =>                                                             (* 137-153 *)
      let A := sqrt (dB2linear (p_gain param)) in
      let a0 := 1 + alpha / A in
      let b1 := (-2 * cw0) / a0 in
      MkCoeff ((1 + A * alpha) / a0) b1 ((1 - A * alpha) / a0) b1 ((1 - alpha / A) / a0)
  | lowshelf =>                                                         (* 154-171 *)
      let A := sqrt (dB2linear (p_gain param)) in
      let Asqrt := sqrt A in
      let a0 := (A + 1) + (A - 1) * cw0 + 2 * Asqrt * alpha in
      MkCoeff (A * ((A + 1) - (A - 1) * cw0 + 2 * Asqrt * alpha) / a0)
              ((2 * A * ((A - 1) - (A + 1) * cw0)) / a0)
              (A * ((A + 1) - (A - 1) * cw0 - 2 * Asqrt * alpha) / a0)
              ((-2 * ((A - 1) + (A + 1) * cw0)) / a0)
              (((A + 1) + (A - 1) * cw0 - 2 * Asqrt * alpha) / a0)
  | highshelf =>                                                        (* 172-189 *)
      let A := sqrt (dB2linear (p_gain param)) in
      let Asqrt := sqrt A in
      let a0 := (A + 1) - (A - 1) * cw0 + 2 * Asqrt * alpha in
      MkCoeff (A * ((A + 1) + (A - 1) * cw0 + 2 * Asqrt * alpha) / a0)
              ((-2 * A * ((A - 1) + (A + 1) * cw0)) / a0)
              (A * ((A + 1) + (A - 1) * cw0 - 2 * Asqrt * alpha) / a0)
              ((2 * ((A - 1) - (A + 1) * cw0)) / a0)
              (((A + 1) - (A - 1) * cw0 - 2 * Asqrt * alpha) / a0)
  end.

(** calculateIirCoefficients for lists, 207-220: std::transform followed by std::fill *)
Definition calculateIirCoefficientsList (params : list iir_param) (coeffs : list (coefficient R))
  (samplingFrequency : R) : res (list (coefficient R)) :=
  if (length coeffs <? length params)%nat then Throw InvalidArgument
  else Ok (map (fun p => calculateIirCoefficients p samplingFrequency) params
           ++ repeat flat (length coeffs - length params)).
