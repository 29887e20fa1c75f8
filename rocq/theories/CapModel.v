(** Compensated amplitude panning: panning::CAP (src/libpanning/CAP.h, CAP.cpp), over the real
    numbers.  Results that are not a number in IEEE arithmetic are [UB].  Not modelled:
    floating-point rounding. *)
From Verif Require Import Base QuaternionModel ListenerModel.
From Coq Require Import Reals.
Local Open Scope R_scope.
Local Open Scope res_scope.

(** XYZ, XYZ.h 23-86: a position or, with the flag isInfinite, a direction *)
Record xyz := XYZ { x_pos : pos3 R; x_infinite : bool }.
(** getLength, XYZ.h 58-60 *)
Definition getLength (a : pos3 R) : R := sqrt (px a * px a + py a * py a + pz a * pz a).
(** dot, XYZ.h 62-64 *)
Definition dot (a v : pos3 R) : R := px a * px v + py a * py v + pz a * pz v.
(** minus, XYZ.h 66-71 *)
Definition minus (a v : pos3 R) : pos3 R := P3 (px a - px v) (py a - py v) (pz a - pz v).
(** normalise, XYZ.h 77-85 *)
Definition xyz_normalise (a : pos3 R) : pos3 R :=
  let l := getLength a in if Req_EM_T l 0 then a else P3 (px a / l) (py a / l) (pz a / l).

(** CAP, CAP.h 28-41: positions of the regular loudspeakers of m_array, number of columns of
    m_gain, listener, aural axis, gain limits, mode *)
Record cap := Cap { c_speakers : list (pos3 R); c_width : nat; c_listener : pos3 R; c_axis : pos3 R;
                    c_maxGainPreComp : R; c_maxGain : R; c_HFmode : bool }.
(** setListenerOrientation, CAP.cpp 231-259 (the flag zero is not used) *)
Definition setListenerOrientation (s : cap) (yaw pitch roll : R) : cap :=
  let cy := cos yaw in let sy := sin yaw in let cp := cos pitch in let sp := sin pitch in let cr := cos roll in let sr := sin roll in
  Cap (c_speakers s) (c_width s) (c_listener s) (P3 (cy * sp * sr - sy * cr) (sy * sp * sr + cy * cr) (- cp * sr))
      (c_maxGainPreComp s) (c_maxGain s) (c_HFmode s).

(** calcGains, CAP.cpp 40-53: directions of the loudspeakers *)
Definition speaker_directions (s : cap) : list (pos3 R) := map (fun p => xyz_normalise (minus p (c_listener s))) (c_speakers s).
(** calcGains, 65-75 and 119-129: distance of the source from the origin and from the listener, direction *)
Definition source_image (s : cap) (src : xyz) : R * R * pos3 R :=
  let rI := x_pos src in
  let rI0_ := getLength rI in
  let rI := if x_infinite src then rI else minus rI (c_listener s) in
  (rI0_, getLength rI, xyz_normalise rI).

Definition sum (l : list R) : R := fold_left (fun acc x => acc + x) l 0.
(** body of the loop over the sources for three and more loudspeakers, 63-113: -b a + c divided by d.
    A source at the origin makes d infinite and all gains zero. *)
Definition energy_gains (s : cap) (src : xyz) : res (list R) :=
  let '(rI0_, rI_, rI) := source_image s src in
  let r := speaker_directions s in
  let n := INR (length r) in
  let a := map (fun ri => dot (c_axis s) (minus ri rI)) r in
  let b := sum a in
  let c := sum (map (fun x => x * x) a) in
  let num := (c * n - b * b) * (rI_ + 1 / 100) in
  if Req_EM_T num 0 then UB
  else
    let g := if Req_EM_T rI0_ 0 then map (fun _ => 0) a else map (fun x => (- b * x + c) / (num / rI0_)) a in
    let gMax := fold_left (fun m x => if Rltb m x then x else m) g 0 in
    Ok (if Rltb (c_maxGain s) gMax then let f := c_maxGain s / gMax in map (fun x => x * f) g else g).

(** "if (gMax > limit) ..." of 167-175 and 188-195 *)
Definition limit_pair (limit : R) (g : R * R) : R * R :=
  let gMax := Rabs (fst g) in
  let gMax := if Rltb gMax (Rabs (snd g)) then Rabs (snd g) else gMax in
  if Rltb limit gMax then let f := limit / gMax in (fst g * f, snd g * f) else g.
(** 151-164: the remapping of the mode HF; the square root of a negative number is not a number *)
Definition remap_pair (hf : bool) (g : R * R) : res (R * R) :=
  if hf then
    if Rltb 0 (fst g * snd g) then
      if Rltb (fst g) 0 then UB
      else let g1 := sqrt (fst g) in let g2 := sqrt (snd g) in let f := 1 / sqrt (g1 * g1 + g2 * g2) in Ok (g1 * f, g2 * f)
    else Ok (0, 0)
  else Ok g.
(** body of the loop for two loudspeakers, 117-213 *)
Definition pair_gains (s : cap) (r0 r1 : pos3 R) (src : xyz) : res (R * R) :=
  let '(rI0_, rI_, rI) := source_image s src in
  let g1 := dot (c_axis s) (minus rI r1) in
  let g2 := - dot (c_axis s) (minus rI r0) in
  let d := Rabs (g1 + g2) in
  let d := if Rltb d (1 / 1000) then 1 / 1000 else d in
  g <- remap_pair (c_HFmode s) (g1 / d, g2 / d) ;;
  let g := limit_pair (c_maxGainPreComp s) g in
  let rI_ := if Rltb rI_ (1 / 1000) then 1 / 1000 else rI_ in
  let c := rI0_ / rI_ in
  Ok (limit_pair (c_maxGain s) (fst g * c, snd g * c)).

(** one row of m_gain: zeros, CAP.cpp 33, then the gains of the loudspeakers *)
Definition gain_row (s : cap) (g : list R) : res (list R) :=
  if Nat.leb (length g) (c_width s) then Ok (g ++ repeat 0 (c_width s - length g)) else UB.
(** the row that calcGains computes for one source, CAP.cpp 33-227 *)
Definition source_gains (s : cap) (src : xyz) : res (list R) :=
  match speaker_directions s with
  | [] | [_] => vset (repeat 0 (c_width s)) 0 1
  | [r0; r1] => g <- pair_gains s r0 r1 src ;; gain_row s [fst g; snd g]
  | _ => g <- energy_gains s src ;; gain_row s g
  end.
Fixpoint calcGains (s : cap) (sources : list xyz) : res (list (list R)) :=
  match sources with [] => Ok [] | src :: rest => g <- source_gains s src ;; gs <- calcGains s rest ;; Ok (g :: gs) end.
