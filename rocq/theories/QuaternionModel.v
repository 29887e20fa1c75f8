(** rbbl::Position3D (src/librbbl/position_3d.cpp), rbbl::Quaternion
    (src/librbbl/quaternion.cpp) and the geometry of pml::ListenerPosition
    (src/libpml/listener_position.cpp).

    The algebraic part is over an arbitrary commutative ring of coordinates, the part
    using square roots and trigonometric functions over the real numbers: rounding is not
    modelled.  The product, conjugate, sum and scaling of boost::math::quaternion, which
    the class wraps (quaternion.hpp 23, 125), are the textbook operations. *)
From Verif Require Import Base.

Record pos3 (A : Type) := P3 { px : A; py : A; pz : A }.
Arguments P3 {A}. Arguments px {A}. Arguments py {A}. Arguments pz {A}.
(** quaternion.hpp 54-60: w() ... z() *)
Record quat (A : Type) := Q4 { qw : A; qx : A; qy : A; qz : A }.
Arguments Q4 {A}. Arguments qw {A}. Arguments qx {A}. Arguments qy {A}. Arguments qz {A}.
(** listener_position.hpp: position, orientation, time stamp, face id, number of listeners *)
Record listener (A : Type) := Lst { l_pos : pos3 A; l_ori : quat A; l_time : nat; l_face : nat; l_num : nat }.
Arguments Lst {A}. Arguments l_pos {A}. Arguments l_ori {A}. Arguments l_time {A}. Arguments l_face {A}.
Arguments l_num {A}.

Section Ring.
  Context {A : Type} (rO rI : A) (radd rmul rsub : A -> A -> A) (ropp : A -> A).
  Local Infix "+" := radd. Local Infix "*" := rmul. Local Infix "-" := rsub.

  (** boost::math::operator* (quaternion) *)
  Definition qmul (a b : quat A) : quat A :=
    Q4 (qw a * qw b - qx a * qx b - qy a * qy b - qz a * qz b)
       (qw a * qx b + qx a * qw b + qy a * qz b - qz a * qy b)
       (qw a * qy b - qx a * qz b + qy a * qw b + qz a * qx b)
       (qw a * qz b + qx a * qy b - qy a * qx b + qz a * qw b).
  (** boost::math::conj; quaternion.cpp 170-174, 205-210 *)
  Definition qconj (a : quat A) : quat A := Q4 (qw a) (ropp (qx a)) (ropp (qy a)) (ropp (qz a)).
  (** quaternion.cpp 274-288, 238-250 *)
  Definition qadd (a b : quat A) : quat A := Q4 (qw a + qw b) (qx a + qx b) (qy a + qy b) (qz a + qz b).
  Definition qsub (a b : quat A) : quat A := Q4 (qw a - qw b) (qx a - qx b) (qy a - qy b) (qz a - qz b).
  (** quaternion.cpp 298-303 *)
  Definition qneg (a : quat A) : quat A := Q4 (ropp (qw a)) (ropp (qx a)) (ropp (qy a)) (ropp (qz a)).
  (** quaternion.cpp 259-264, 305-310 *)
  Definition qscale (s : A) (a : quat A) : quat A := Q4 (s * qw a) (s * qx a) (s * qy a) (s * qz a).
  (** quaternion.cpp 218-222 *)
  Definition qnormsq (a : quat A) : A := qw a * qw a + qx a * qx a + qy a * qy a + qz a * qz a.
  (** quaternion.cpp 353-359 *)
  Definition qdot (a b : quat A) : A := qw a * qw b + qx a * qx b + qy a * qy b + qz a * qz b.
  (** quaternion.cpp 17-21 *)
  Definition qdefault : quat A := Q4 rI rO rO rO.
  (** quaternion.cpp 23-29: the flag [normalise] is not used *)
  Definition qctor (w x y z : A) (normalise : bool) : quat A := Q4 w x y z.
  (** quaternion.cpp 266-270 *)
  Definition qrotate (q rot : quat A) : quat A := qmul rot q.

  (** position_3d.cpp 153-188, 68-95 *)
  Definition padd (a b : pos3 A) : pos3 A := P3 (px a + px b) (py a + py b) (pz a + pz b).
  Definition psub (a b : pos3 A) : pos3 A := P3 (px a - px b) (py a - py b) (pz a - pz b).
  Definition pneg (a : pos3 A) : pos3 A := P3 (ropp (px a)) (ropp (py a)) (ropp (pz a)).
  Definition pscale (s : A) (a : pos3 A) : pos3 A := P3 (s * px a) (s * py a) (s * pz a).
  (** position_3d.cpp 56-60 *)
  Definition pnormsq (a : pos3 A) : A := px a * px a + py a * py a + pz a * pz a.
  (** position_3d.cpp 211-216 *)
  Definition pdot (a b : pos3 A) : A := px a * px b + py a * py b + pz a * pz b.
  (** position_3d.cpp 97-107 *)
  Definition protate (p : pos3 A) (rot : quat A) : pos3 A :=
    let asQuat := Q4 rO (px p) (py p) (pz p) in
    let resQuat := qmul (qmul rot asQuat) (qconj rot) in
    P3 (qx resQuat) (qy resQuat) (qz resQuat).
  (** position_3d.cpp 109-114 *)
  Definition ptranslate (p shift : pos3 A) : pos3 A := padd p shift.
  (** position_3d.cpp 116-122, 227-235 *)
  Definition ptransform (p : pos3 A) (rot : quat A) (shift : pos3 A) : pos3 A :=
    ptranslate (protate p rot) shift.

  (** listener_position.cpp 25-35, 60-68 *)
  Definition l_make (p : pos3 A) (q : quat A) : listener A := Lst p q 0 0 1.
  Definition l_default : listener A := l_make (P3 rO rO rO) qdefault.
  (** listener_position.cpp 198-202 *)
  Definition l_translate (l : listener A) (t : pos3 A) : listener A :=
    Lst (padd (l_pos l) t) (l_ori l) (l_time l) (l_face l) (l_num l).
  (** listener_position.cpp 211-215 *)
  Definition l_rotatePosition (l : listener A) (q : quat A) : listener A :=
    Lst (protate (l_pos l) q) (l_ori l) (l_time l) (l_face l) (l_num l).
  (** listener_position.cpp 217-221 *)
  Definition l_rotateOrientation (l : listener A) (q : quat A) : listener A :=
    Lst (l_pos l) (qmul q (l_ori l)) (l_time l) (l_face l) (l_num l).
  (** listener_position.cpp 204-209 *)
  Definition l_rotate (l : listener A) (q : quat A) : listener A :=
    l_rotateOrientation (l_rotatePosition l q) q.
  (** listener_position.cpp 223-229 *)
  Definition l_transform (l : listener A) (q : quat A) (t : pos3 A) : listener A :=
    l_translate (l_rotate l q) t.
End Ring.

From Coq Require Import Reals.
Local Open Scope R_scope.
Local Open Scope res_scope.

Definition Rqmul := @qmul R Rplus Rmult Rminus.
Definition Rprotate := @protate R 0 Rplus Rmult Rminus Ropp.
Definition Rqnormsq := @qnormsq R Rplus Rmult.
Definition Rqdot := @qdot R Rplus Rmult.
Definition Rpdot := @pdot R Rplus Rmult.
Definition Rpadd := @padd R Rplus.
Definition Rpscale := @pscale R Rmult.
Definition Rqadd := @qadd R Rplus.
Definition Rqscale := @qscale R Rmult.

(** [x < y], [x <= y] as computed by the code, on exact values *)
Definition Rltb (x y : R) : bool := if Rlt_dec x y then true else false.
Definition Rleb (x y : R) : bool := if Rle_dec x y then true else false.
(** Division; a zero divisor (which yields an infinity or a NaN) is reported as undefined. *)
Definition rdiv (x y : R) : res R := if Req_EM_T y 0 then UB else Ok (x / y).

(** std::atan2 (C11 7.12.4.4, F.10.1.4): [atan2 y x] is the angle of the point (x,y) in
    (-pi,pi]; [atan2 0 0 = 0] *)
Definition atan2 (y x : R) : R :=
  if Rltb 0 x then atan (y / x)
  else if Rltb x 0 then (if Rleb 0 y then atan (y / x) + PI else atan (y / x) - PI)
  else if Rltb 0 y then PI / 2 else if Rltb y 0 then - (PI / 2) else 0.

Section Real.
  (** std::numeric_limits<T>::epsilon() *)
  Variable epsilon : R.

  (** position_3d.cpp 50-54 *)
  Definition pnorm (p : pos3 R) : R := sqrt (pnormsq Rplus Rmult p).
  (** position_3d.cpp 197-209 *)
  Definition pnormalise (val : pos3 R) (silentDivideByZero : bool) : res (pos3 R) :=
    let n2 := pnorm val in
    if negb silentDivideByZero && Rltb n2 epsilon then Throw RuntimeError
    else s <- rdiv 1 n2 ;; Ok (Rpscale s val).
  (** position_3d.cpp 142-151 *)
  Definition pangleNormalised (lhs rhs : pos3 R) : R := acos (Rmax (-1) (Rmin 1 (Rpdot lhs rhs))).
  (** position_3d.cpp 127-140: a runtime_error is rethrown as a runtime_error *)
  Definition pangle (lhs rhs : pos3 R) : res R :=
    a <- pnormalise lhs false ;; b <- pnormalise rhs false ;; Ok (pangleNormalised a b).
  (** position_3d.cpp 237-258 *)
  Definition pinterpolate (pos0 pos1 : pos3 R) (t : R) : res (pos3 R) :=
    n0 <- pnormalise pos0 false ;;
    n1 <- pnormalise pos1 false ;;
    let omega := pangleNormalised n0 n1 in
    if Rltb omega epsilon then Ok (Rpadd (Rpscale (1 - t) pos0) (Rpscale t pos1))
    else
      sf <- rdiv 1 (sin omega) ;;
      let c0 := sf * sin ((1 - t) * omega) in
      let c1 := sf * sin (t * omega) in
      let resDir := Rpadd (Rpscale c0 n0) (Rpscale c1 n1) in
      let resRadius := (1 - t) * pnorm pos0 + t * pnorm pos1 in
      Ok (Rpscale resRadius resDir).

  (** quaternion.cpp 104-133 *)
  Definition yaw (q : quat R) : R :=
    atan2 (2 * (qw q * qz q + qx q * qy q)) (1 - 2 * (qy q * qy q + qz q * qz q)).
  Definition pitch (q : quat R) : R :=
    let arg := 2 * (qw q * qy q - qz q * qx q) in
    if Rleb 1 (Rabs arg) then (if Rltb arg 0 then - (PI / 2) else PI / 2) (* std::copysign *)
    else asin arg.
  Definition roll (q : quat R) : R :=
    atan2 (2 * (qw q * qx q + qy q * qz q)) (1 - 2 * (qx q * qx q + qy q * qy q)).
  (** norm of the vector part: quaternion.cpp 140-142, 157-159 *)
  Definition qvnorm (q : quat R) : R := sqrt (qx q * qx q + qy q * qy q + qz q * qz q).
  (** quaternion.cpp 135-151 *)
  Definition rotationVector (q : quat R) : res (pos3 R) :=
    let norm := qvnorm q in
    if Rleb norm epsilon then Ok (P3 1 0 0)
    else scale <- rdiv 1 norm ;; Ok (P3 (scale * qx q) (scale * qy q) (scale * qz q)).
  (** quaternion.cpp 153-161 *)
  Definition rotationAngle (q : quat R) : R := 2 * atan2 (qvnorm q) (qw q).
  (** quaternion.cpp 176-191, 50-57 (the names of the last two parameters of fromYPR are
      interchanged in quaternion.hpp 37-39; the definition is what counts) *)
  Definition setYPR (yaw pitch roll : R) : quat R :=
    let cy := cos (yaw * / 2) in
    let sy := sin (yaw * / 2) in
    let cp := cos (pitch * / 2) in
    let sp := sin (pitch * / 2) in
    let cr := cos (roll * / 2) in
    let sr := sin (roll * / 2) in
    Q4 (cy * cp * cr + sy * sp * sr) (cy * cp * sr - sy * sp * cr)
       (sy * cp * sr + cy * sp * cr) (sy * cp * cr - cy * sp * sr).
  (** quaternion.cpp 193-203, 59-67 *)
  Definition setRotationVector (rotVec : pos3 R) (angle : R) : res (quat R) :=
    normVec <- pnormalise rotVec false ;;
    let sinPhi2 := sin (/ 2 * angle) in
    Ok (Q4 (cos (/ 2 * angle)) (sinPhi2 * px normVec) (sinPhi2 * py normVec) (sinPhi2 * pz normVec)).
  (** quaternion.cpp 212-216 *)
  Definition qnorm (q : quat R) : R := sqrt (Rqnormsq q).
  (** quaternion.cpp 224-236, 343-351 *)
  Definition qnormalise (q : quat R) (adjustSign silentDivideByZero : bool) : res (quat R) :=
    let l2 := qnorm q in
    if negb silentDivideByZero && Rltb l2 epsilon then Throw RuntimeError
    else
      let scale := if adjustSign && Rltb (qw q) 0 then -1 else 1 in
      s <- rdiv scale l2 ;; Ok (Rqscale s q).
  (** quaternion.cpp 327-341 *)
  Definition qangleNormalised (q1 q2 : quat R) : R :=
    let wDot := Rqdot q1 q2 in
    let wDiff := sqrt (Rabs wDot) in
    2 * acos (Rmax (Rmin wDiff 1) (-1)).
  (** quaternion.cpp 320-325 *)
  Definition qangle (q1 q2 : quat R) : res R :=
    a <- qnormalise q1 false false ;; b <- qnormalise q2 false false ;; Ok (qangleNormalised a b).
  (** quaternion.cpp 361-383 *)
  Definition qinterpolate (pos0 pos1 : quat R) (t : R) : res (quat R) :=
    n0 <- qnormalise pos0 false false ;;
    n1 <- qnormalise pos1 false false ;;
    let omega := acos (Rmin 1 (Rmax (-1) (Rqdot n0 n1))) in
    let sinOmega := sin omega in
    sf1 <- rdiv (sin ((1 - t) * omega)) sinOmega ;;
    sf2 <- rdiv (sin (t * omega)) sinOmega ;;
    Ok (Rqadd (Rqscale sf1 pos0) (Rqscale sf2 pos1)).

  (** *** JSON representation of pml::ListenerPosition, at the level of the property tree:
      optional members (boost::property_tree::read_json/write_json and the conversion of
      numbers to text are not modelled). *)
  (** The subtree "orientation" *)
  Record orientationTree := OT {
    ot_quat : option (option R * option R * option R * option R); (* "quaternion": w, x, y, z *)
    ot_yaw : option R; ot_pitch : option R; ot_roll : option R;
    ot_rv : option (option R * option R * option R * option R) }. (* "rotationVector": x, y, z, angle *)
  Record tree := Tree {
    t_x : option R; t_y : option R; t_z : option R;
    t_ori : option orientationTree;
    t_time : option nat; t_face : option nat; t_num : option nat }.
  (** efl::degree2radian, efl::radian2degree: src/libefl/degree_radian_conversion.hpp 22-32 *)
  Definition degree2radian (deg : R) : R := PI / 180 * deg.
  Definition radian2degree (rad : R) : R := 180 / PI * rad.

  Definition get {A} (d : A) (o : option A) : A := match o with Some x => x | None => d end.
  (** boost::property_tree::ptree::get without default: ptree_bad_path, a runtime_error *)
  Definition need {A} (o : option A) : res A := match o with Some x => Ok x | None => Throw RuntimeError end.
  Definition isSome {A} (o : option A) : bool := match o with Some _ => true | None => false end.
  Definition n1 (b : bool) : nat := if b then 1 else 0.

  (** listener_position.cpp 254-319 *)
  Definition parseOrientation (o : orientationTree) : res (quat R) :=
    let hasQuat := isSome (ot_quat o) in
    let hasYpr := isSome (ot_yaw o) || isSome (ot_pitch o) || isSome (ot_roll o) in
    let hasRotationVec := isSome (ot_rv o) in
    if Nat.ltb 1 (n1 hasQuat + n1 hasYpr + n1 hasRotationVec) then Throw InvalidArgument
    else
      match ot_quat o, ot_rv o with
      | Some (w, x, y, z), _ =>
          w <- need w ;; x <- need x ;; y <- need y ;; z <- need z ;; Ok (Q4 w x y z)
      | None, rv =>
          if hasYpr then Ok (setYPR (degree2radian (get 0 (ot_yaw o))) (degree2radian (get 0 (ot_pitch o)))
                                    (degree2radian (get 0 (ot_roll o))))
          else
            match rv with
            | Some (x, y, z, angle) =>
                x <- need x ;; y <- need y ;; z <- need z ;; angle <- need angle ;;
                setRotationVector (P3 x y z) (degree2radian angle)
            | None => Ok (setYPR 0 0 0)
            end
      end.
  Definition parseJson (t : tree) : res (listener R) :=
    let x := get 0 (t_x t) in
    let y := get 0 (t_y t) in
    let z := get 0 (t_z t) in
    q <- match t_ori t with Some o => parseOrientation o | None => Ok (qdefault 0 1) end ;;
    Ok (Lst (P3 x y z) q (get 0%nat (t_time t)) (get 0%nat (t_face t)) (get 1%nat (t_num t))).

  (** listener_position.hpp: RotationFormat *)
  Inductive rotationFormat := YPR | RotationVector | QuaternionFormat.
  (** listener_position.cpp 337-392 *)
  Definition writeOrientation (f : rotationFormat) (q : quat R) : res orientationTree :=
    match f with
    | YPR => Ok (OT None (Some (radian2degree (yaw q))) (Some (radian2degree (pitch q)))
                    (Some (radian2degree (roll q))) None)
    | RotationVector =>
        v <- rotationVector q ;;
        let angle := radian2degree (rotationAngle q) in
        Ok (OT None None None None (Some (Some (px v), Some (py v), Some (pz v), Some angle)))
    | QuaternionFormat => Ok (OT (Some (Some (qw q), Some (qx q), Some (qy q), Some (qz q))) None None None None)
    end.
  Definition writeJson (f : rotationFormat) (l : listener R) : res tree :=
    o <- writeOrientation f (l_ori l) ;;
    Ok (Tree (Some (px (l_pos l))) (Some (py (l_pos l))) (Some (pz (l_pos l))) (Some o)
             (if Nat.eqb (l_time l) 0 then None else Some (l_time l))
             (if Nat.eqb (l_face l) 0 then None else Some (l_face l))
             (Some (l_num l))).
End Real.
