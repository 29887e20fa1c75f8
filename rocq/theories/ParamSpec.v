(** What is expected of the factories and of parameter configurations, independent of the code. *)
From Coq Require Import List NArith String.
Import ListNotations.
From Verif Require Import ParamModel.

(** *** Histories of registrations *)
Definition op_id (o : op) : N := match o with Register i _ | Unregister i => i end.
(** [t] was the first class registered for [i] since the start, or since [i] was removed for the last time *)
Definition current (h : list op) (i : N) (t : ptype) : Prop :=
  exists h0 a b, h = h0 ++ a ++ Register i t :: b
    /\ (h0 = [] \/ exists h0', h0 = h0' ++ [Unregister i])
    /\ (forall o, In o a -> op_id o <> i)
    /\ ~ In (Unregister i) b.
(** every class is registered with the id it declares *)
Definition own_ids (h : list op) : Prop := forall i t, In (Register i t) h -> i = type_id t.

(** *** Protocols *)
Definition id_taken (m : ptable) (e : pentry) : Prop := exists e', In e' m /\ e_id e' = e_id e.
Definition name_taken (m : ptable) (e : pentry) : Prop := exists e', In e' m /\ e_name e' = e_name e.

(** *** Configurations *)
Definition class_of (c : config) : config_class :=
  match c with
  | CEmpty => KEmpty | CVector _ => KVector | CMatrix _ _ => KMatrix
  | CTimeFrequency _ _ _ => KTimeFrequency | CInterpolation _ => KInterpolation
  end.
(** the configuration that describes objects of a type *)
Definition needed_config (t : ptype) : config_class :=
  match t with
  | BiquadMatrix _ | Matrix _ | PanningMatrix => KMatrix
  | BiquadCoefficientList _ | Vector _ => KVector
  | TimeFrequency _ => KTimeFrequency
  | Interpolation => KInterpolation
  | _ => KEmpty
  end.
(** the types that do not look at their configuration *)
Definition any_config (t : ptype) : Prop := t = SignalRouting \/ t = LateReverb.
(** dimensions that agree with a configuration *)
Inductive dimensions : config -> shape -> Prop :=
| dim_vector n : dimensions (CVector n) (VectorShape n)
| dim_matrix r n : dimensions (CMatrix r n) (MatrixShape r n)
| dim_no_rows n : dimensions (CMatrix 0 n) (MatrixShape 0 0)
| dim_spectra b n f : dimensions (CTimeFrequency b n f) (SpectraShape (f * n) b n)
| dim_interpolation n : dimensions (CInterpolation n) (InterpolationShape n).
(** the types whose constructor reports a wrong configuration as std::invalid_argument; the others let
    std::bad_cast through *)
Definition reports_argument (t : ptype) : Prop :=
  match t with
  | BiquadCoefficient _ | BiquadCoefficientList _ | BiquadMatrix _ | FilterRouting | FilterRoutingList
  | SparseGainRouting | SparseGainRoutingList => True
  | _ => False
  end.
(** the number of parameter objects in a connection *)
Definition copies (k : pkind) : nat := match k with DoubleBuffering => 2 | SharedData => 1 | MessageQueue => 0 end.
