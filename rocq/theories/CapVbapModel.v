(** The variant of vector base amplitude panning for high frequency gains of compensated amplitude
    panning: panning::CAP_VBAP (src/libpanning/CAP_VBAP.h, CAP_VBAP.cpp), over the real numbers.
    normalise (82-90), the inverse matrix (196-213), applyRerouting (343-352) and
    powerNormalisation (70-80) repeat the code of VBAP.cpp, see VbapModel.  Not modelled:
    floating-point rounding. *)
From Verif Require Import Base QuaternionModel ListenerModel VbapModel.
From Coq Require Import Reals.
Local Open Scope R_scope.
Local Open Scope res_scope.

(** CAP_VBAP, CAP_VBAP.h 86-150: array, listener position, inverse matrices with
    mListenerIsNearTripletBoundary, mNearTripletBoundaryCosTheta, m2Dfade *)
Record capvbap := CapVbap { k_array : array; k_listener : pos3 R; k_rows : list (inverse * bool); k_threshold : R; k_fade : bool }.

Section CapVbap.
  (** std::numeric_limits<SampleType>::epsilon() *)
  Variable epsilon : R.

  (** body of the loop of calcInvMatrices, CAP_VBAP.cpp 147-216; unlike VBAP.cpp, the position of the
      third loudspeaker is read for 2D arrays, too *)
  Definition cv_row (a : array) (listener : pos3 R) (threshold : R) (t : triplet) : res (inverse * bool) :=
    l1 <- position (a_positions a) (t_1 t) ;;
    l2 <- position (a_positions a) (t_2 t) ;;
    l3 <- match t_3 t with Some i => position (a_positions a) i | None => UB end ;;
    let relative := fun p => if a_infinite a then p else Rpsub p listener in
    let flat := fun p => if a_2D a then P3 (px p) (py p) 0 else p in
    let n1 := normalise epsilon (flat (relative l1)) in
    let n2 := normalise epsilon (flat (relative l2)) in
    let n3 := normalise epsilon (if a_2D a then P3 0 0 1 else relative l3) in
    Ok (inv_matrix n1 n2 n3, Rltb (px n1 * px n2 + py n1 * py n2) threshold).
  (** setListenerPosition, 110-128 *)
  Definition cv_setListenerPosition (a : array) (threshold : R) (fade : bool) (listener : pos3 R) : res capvbap :=
    rows <- map_res (cv_row a listener threshold) (a_triplets a) ;; Ok (CapVbap a listener rows threshold fade).
  (** the constructor, 23-67 *)
  Definition cv_construct (a : array) (listener : pos3 R) : res capvbap := cv_setListenerPosition a (-1) false listener.
  (** setNearTripletBoundaryCosTheta, CAP_VBAP.h 79-81 *)
  Definition setNearTripletBoundaryCosTheta (v : capvbap) (t : R) : capvbap :=
    CapVbap (k_array v) (k_listener v) (k_rows v) t (k_fade v).
  (** set2Dfade, CAP_VBAP.cpp 130-133 *)
  Definition set2Dfade (v : capvbap) (fade : bool) : capvbap := CapVbap (k_array v) (k_listener v) (k_rows v) (k_threshold v) fade.

  (** loop of calcPlainGains, 266-303: the first triplet that encloses the source or, if the listener is
      near its boundary, the opposite of the source *)
  Fixpoint cv_search (is2D : bool) (p : pos3 R) (rows : list (inverse * bool)) (j : nat) : option (nat * (R * R * R)) :=
    match rows with
    | [] => None
    | (i, near) :: rest =>
        let g1 := px p * px (i_1 i) + py p * py (i_1 i) + pz p * pz (i_1 i) in
        let g2 := px p * px (i_2 i) + py p * py (i_2 i) + pz p * pz (i_2 i) in
        let g3 := px p * px (i_3 i) + py p * py (i_3 i) + pz p * pz (i_3 i) in
        if (Rleb 0 g1 && Rleb 0 g2 && (Rleb 0 g3 || is2D)) || (Rleb g1 0 && Rleb g2 0 && (Rleb g3 0 || is2D) && near)
        then Some (j, if Rleb g1 0 && Rleb g2 0 then (- g1, - g2, g3) else (g1, g2, g3))
        else cv_search is2D p rest (S j)
    end.
  (** calcPlainGains, 223-339: the new contents of mGain *)
  Definition calcPlainGains (v : capvbap) (pos : pos3 R) (planeWave : bool) : res (list R) :=
    let a := k_array v in
    let gain := repeat 0 (length (a_positions a)) in
    let p := if planeWave then pos else Rpsub pos (k_listener v) in
    let p := if a_2D a && negb (k_fade v) then P3 (px p) (py p) 0 else p in
    match cv_search (a_2D a) p (k_rows v) 0 with
    | None => Ok gain
    | Some (jmin, (g1, g2, g3)) =>
        match nth_error (a_triplets a) jmin with
        | None => UB
        | Some t =>
            gain <- vset gain (t_1 t) g1 ;;
            gain <- vset gain (t_2 t) g2 ;;
            if a_2D a then Ok gain
            else match t_3 t with Some l3 => vset gain l3 g3 | None => UB end
        end
    end.
  (** calculateGains, 93-98 *)
  Definition cv_calculateGains (v : capvbap) (pos : pos3 R) (planeWave : bool) : res (list R) :=
    gain <- calcPlainGains v pos planeWave ;; Ok (powerNormalisation epsilon (applyRerouting (k_array v) gain)).
  (** calculateGainsUnNormalised, 100-105 *)
  Definition cv_calculateGainsUnNormalised (v : capvbap) (pos : pos3 R) (planeWave : bool) : res (list R) :=
    gain <- calcPlainGains v pos planeWave ;; Ok (applyRerouting (k_array v) gain).
End CapVbap.
