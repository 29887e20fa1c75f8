(** Vector base amplitude panning: panning::VBAP (src/libpanning/VBAP.h, VBAP.cpp), over the
    real numbers.  Not modelled: floating-point rounding. *)
From Verif Require Import Base QuaternionModel ListenerModel.
From Coq Require Import Reals.
Local Open Scope R_scope.
Local Open Scope res_scope.

(** LoudspeakerArray::TripletType; the third index of a 2D array is -1 converted to std::size_t
    (LoudspeakerArray.cpp 455), written [None] *)
Record triplet := Triplet { t_1 : nat; t_2 : nat; t_3 : option nat }.
(** What VBAP::VBAP copies from the LoudspeakerArray, VBAP.cpp 23-66: positions of all
    loudspeakers (regular ones first), triplets, one row of rerouting coefficients for every
    virtual loudspeaker *)
Record array := Array { a_2D : bool; a_infinite : bool; a_positions : list (pos3 R); a_regular : nat;
                        a_triplets : list triplet; a_rerouting : list (list R) }.

Section Vbap.
  (** std::numeric_limits<SampleType>::epsilon() *)
  Variable epsilon : R.

  (** normalise, VBAP.cpp 82-90 *)
  Definition normalise (a : pos3 R) : pos3 R :=
    let l := sqrt (px a * px a + py a * py a + pz a * pz a) in
    if Rleb epsilon l then P3 (px a / l) (py a / l) (pz a / l) else a.

  (** one row of mInvMatrix: inv[0..2], inv[3..5], inv[6..8] *)
  Record inverse := Inv { i_1 : pos3 R; i_2 : pos3 R; i_3 : pos3 R }.
  (** calcInvMatrices, 193-208 *)
  Definition inv_matrix (l1 l2 l3 : pos3 R) : inverse :=
    let '(P3 l1X l1Y l1Z) := l1 in let '(P3 l2X l2Y l2Z) := l2 in let '(P3 l3X l3Y l3Z) := l3 in
    let temp := l1X * ((l2Y * l3Z) - (l2Z * l3Y)) - l1Y * ((l2X * l3Z) - (l2Z * l3X)) + l1Z * ((l2X * l3Y) - (l2Y * l3X)) in
    let det := if Req_EM_T temp 0 then 1 else 1 / temp in
    Inv (P3 (((l2Y * l3Z) - (l2Z * l3Y)) * det) (((l2X * l3Z) - (l2Z * l3X)) * - det) (((l2X * l3Y) - (l2Y * l3X)) * det))
        (P3 (((l1Y * l3Z) - (l1Z * l3Y)) * - det) (((l1X * l3Z) - (l1Z * l3X)) * det) (((l1X * l3Y) - (l1Y * l3X)) * - det))
        (P3 (((l1Y * l2Z) - (l1Z * l2Y)) * det) (((l1X * l2Z) - (l1Z * l2X)) * - det) (((l1X * l2Y) - (l1Y * l2X)) * det)).
  (** mPositions( i, . ): unchecked access *)
  Definition position (positions : list (pos3 R)) (i : nat) : res (pos3 R) :=
    match nth_error positions i with Some p => Ok p | None => UB end.
  Definition Rpsub (a b : pos3 R) : pos3 R := P3 (px a - px b) (py a - py b) (pz a - pz b).
  (** body of the loop of calcInvMatrices, 147-209 *)
  Definition triplet_inverse (a : array) (listener : pos3 R) (t : triplet) : res inverse :=
    l1 <- position (a_positions a) (t_1 t) ;;
    l2 <- position (a_positions a) (t_2 t) ;;
    l3 <- (if a_2D a then Ok (P3 0 0 1)
           else match t_3 t with Some i => position (a_positions a) i | None => UB end) ;;
    Ok (inv_matrix (normalise (Rpsub l1 listener)) (normalise (Rpsub l2 listener)) (normalise (Rpsub l3 listener))).
  Fixpoint map_res {A B} (f : A -> res B) (l : list A) : res (list B) :=
    match l with [] => Ok [] | x :: l' => y <- f x ;; ys <- map_res f l' ;; Ok (y :: ys) end.

  (** The object: listener position and inverse matrices *)
  Record vbap := Vbap { v_array : array; v_listener : pos3 R; v_inverse : list inverse }.
  (** setListenerPosition, 113-130 (with calcInvMatrices); the constructor ends with it *)
  Definition setListenerPosition (a : array) (listener : pos3 R) : res vbap :=
    inv <- map_res (triplet_inverse a listener) (a_triplets a) ;; Ok (Vbap a listener inv).

  Definition Rdot (a b : pos3 R) : R := px a * px b + py a * py b + pz a * pz b.
  Definition negatives (g : R * R * R) : nat :=
    let '(g1, g2, g3) := g in ((if Rltb g1 0 then 1 else 0) + (if Rltb g2 0 then 1 else 0) + (if Rltb g3 0 then 1 else 0))%nat.
  (** loop of calcPlainVBAP, 250-282; [best] holds jmin (if valid), g1min, g2min, g3min and [gmin] *)
  Fixpoint search (is2D : bool) (p : pos3 R) (inv : list inverse) (j : nat) (best : option (nat * (R * R * R))) (gmin : R)
    : option (nat * (R * R * R)) :=
    match inv with
    | [] => best
    | i :: rest =>
        let g1 := px p * px (i_1 i) + py p * py (i_1 i) + pz p * pz (i_1 i) in
        let g2 := px p * px (i_2 i) + py p * py (i_2 i) + pz p * pz (i_2 i) in
        let g3 := px p * px (i_3 i) + py p * py (i_3 i) + pz p * pz (i_3 i) in
        if Rleb 0 g1 && Rleb 0 g2 && (Rleb 0 g3 || is2D) then Some (j, (g1, g2, g3))
        else if Nat.leb (negatives (g1, g2, g3)) 1
                && match best with None => true | Some _ => Rltb gmin g1 && Rltb gmin g2 && Rltb gmin g3 end
        then
          let m1 := g1 in
          let m2 := if Rltb g2 m1 then g2 else m1 in
          let m3 := if Rltb g3 m2 then g3 else m2 in
          search is2D p rest (S j) (Some (j, (g1, g2, g3))) m3
        else search is2D p rest (S j) best gmin
    end.
  (** calcPlainVBAP, 214-309: the new contents of mGain *)
  Definition calcPlainVBAP (v : vbap) (pos : pos3 R) (planeWave : bool) : res (list R) :=
    let a := v_array v in
    let gain := repeat 0 (length (a_positions a)) in
    let p := if planeWave then pos else Rpsub pos (v_listener v) in
    let p := if a_2D a then P3 (px p) (py p) 0 else p in
    match search (a_2D a) p (v_inverse v) 0 None 0 with
    | None => Throw RuntimeError
    | Some (jmin, (g1, g2, g3)) =>
        match nth_error (a_triplets a) jmin with
        | None => UB
        | Some t =>
            gain <- vset gain (t_1 t) g1 ;;
            gain <- vset gain (t_2 t) g2 ;;
            if a_2D a then Ok gain
            else match t_3 t with Some l3 => vset gain l3 g3 | None => UB end
        end
    end.
  (** applyRerouting, 311-320, restricted to the regular loudspeakers: the gains of virtual
      loudspeakers are read, but not changed *)
  Definition applyRerouting (a : array) (gain : list R) : list R :=
    map (fun i => fold_left (fun g j => g + nth i (nth j (a_rerouting a) []) 0 * nth (a_regular a + j) gain 0)
                            (seq 0 (length (a_positions a) - a_regular a)) (nth i gain 0))
        (seq 0 (a_regular a)).
  (** powerNormalisation, 70-80 *)
  Definition powerNormalisation (gains : list R) : list R :=
    let sigPower := fold_left (fun acc val => acc + val * val) gains 0 in
    let normFactor := 1 / Rmax (sqrt sigPower) epsilon in
    map (fun g => normFactor * g) gains.
  (** calculateGains, 93-103 *)
  Definition calculateGains (v : vbap) (pos : pos3 R) (planeWave : bool) : res (list R) :=
    gain <- calcPlainVBAP v pos planeWave ;; Ok (powerNormalisation (applyRerouting (v_array v) gain)).
  (** calculateGainsUnNormalised, 105-110 *)
  Definition calculateGainsUnNormalised (v : vbap) (pos : pos3 R) (planeWave : bool) : res (list R) :=
    gain <- calcPlainVBAP v pos planeWave ;; Ok (applyRerouting (v_array v) gain).
End Vbap.
