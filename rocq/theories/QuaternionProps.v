(** C48, C52, C53, C54, C55: rotations, conversions of orientations, angles, spherical
    interpolation and the JSON form of the listener position. *)
From Verif Require Import Base QuaternionModel QuaternionProofs.
From Coq Require Import Reals Lra Ring ZArith.
Local Open Scope R_scope.
Local Open Scope res_scope.

Section Rotations.
  Context {A : Type} (rO rI : A) (radd rmul rsub : A -> A -> A) (ropp : A -> A).
  Hypothesis RT : ring_theory rO rI radd rmul rsub ropp eq.
  Local Notation qmul := (qmul radd rmul rsub).
  Local Notation qconj := (qconj ropp).
  Local Notation qnormsq := (qnormsq radd rmul).
  Local Notation protate := (protate rO radd rmul rsub ropp).
  Local Notation pdot := (pdot radd rmul).
  Local Notation pnormsq := (pnormsq radd rmul).
  Local Notation padd := (padd radd).
  Local Notation psub := (psub rsub).
  Local Notation pscale := (pscale rmul).
  Local Notation cross := (cross rmul rsub).

  Add Ring Ar' : RT.

  (** C48, first part: rotating by a unit quaternion is a proper rigid rotation (linear, it
      preserves dot products, norms and distances and the orientation), successive
      rotation is rotation by the product and the conjugate undoes it. *)
  Theorem C48_rotation (q : quat A) (p p' : pos3 A) :
    qnormsq q = rI ->
    (forall a b, protate (padd (pscale a p) (pscale b p')) q = padd (pscale a (protate p q)) (pscale b (protate p' q))) /\
    pdot (protate p q) (protate p' q) = pdot p p' /\
    pnormsq (protate p q) = pnormsq p /\
    pnormsq (psub (protate p q) (protate p' q)) = pnormsq (psub p p') /\
    cross (protate p q) (protate p' q) = protate (cross p p') q /\
    (forall r, protate (protate p q) r = protate p (qmul r q)) /\
    (forall r, qnormsq r = rI -> qnormsq (qmul r q) = rI) /\
    qnormsq (qconj q) = rI /\
    protate (protate p q) (qconj q) = p /\ protate (protate p (qconj q)) q = p.
  Proof using RT.
    intros U.
    assert (D : forall a b, pdot (protate a q) (protate b q) = pdot a b).
    { intros a b. rewrite (rotate_dot _ _ _ _ _ _ RT), U. ring. }
    assert (L : forall a b u v, protate (padd (pscale a u) (pscale b v)) q =
                                padd (pscale a (protate u q)) (pscale b (protate v q))).
    { intros. apply (rotate_linear _ _ _ _ _ _ RT). }
    assert (Inv : forall r u, qnormsq r = rI -> protate (protate u r) (qconj r) = u).
    { intros r u E. rewrite (rotate_undo _ _ _ _ _ _ RT), E. destruct u as [x y z].
      apply P3_eq; cbv [QuaternionModel.pscale px py pz]; ring. }
    assert (CC : qconj (qconj q) = q).
    { destruct q as [w x y z]. apply Q4_eq; cbv [QuaternionModel.qconj qw qx qy qz]; ring. }
    split; [intros; apply L|].
    split; [apply D|]. split; [apply D|]. split.
    { assert (S : forall a b, psub a b = padd (pscale rI a) (pscale (ropp rI) b)).
      { intros [a1 a2 a3] [b1 b2 b3]. apply P3_eq;
        cbv [QuaternionModel.psub QuaternionModel.padd QuaternionModel.pscale px py pz]; ring. }
      rewrite !S, <- L. apply D. }
    split.
    { rewrite (rotate_cross _ _ _ _ _ _ RT), U. destruct (protate (cross p p') q) as [x y z].
      apply P3_eq; cbv [QuaternionModel.pscale px py pz]; ring. }
    split; [intros; apply (rotate_compose _ _ _ _ _ _ RT)|].
    split; [intros r E; rewrite (normsq_mul _ _ _ _ _ _ RT), E, U; ring|].
    split; [now rewrite (normsq_conj _ _ _ _ _ _ RT)|].
    split; [now apply Inv|].
    rewrite <- CC at 2. apply Inv. now rewrite (normsq_conj _ _ _ _ _ _ RT).
  Qed.

  (** What a rotation does to a position, in vector form: independent of the quaternion
      product. *)
  Definition turn (q : quat A) (p : pos3 A) : pos3 A :=
    let v := P3 (qx q) (qy q) (qz q) in
    padd (padd (pscale (rsub (rmul (qw q) (qw q)) (pdot v v)) p) (pscale (rmul (radd rI rI) (pdot v p)) v))
         (pscale (rmul (radd rI rI) (qw q)) (cross v p)).

  Inductive lop :=
  | Translate (t : pos3 A) | Rotate (q : quat A) | RotatePosition (q : quat A) | RotateOrientation (q : quat A)
  | Transform (q : quat A) (t : pos3 A) | SetPosition (p : pos3 A) | SetOrientation (q : quat A)
  | SetMeta (time face num : nat).

  Definition lstep (l : listener A) (o : lop) : listener A :=
    match o with
    | Translate t => l_translate radd l t
    | Rotate q => l_rotate rO radd rmul rsub ropp l q
    | RotatePosition q => l_rotatePosition rO radd rmul rsub ropp l q
    | RotateOrientation q => l_rotateOrientation radd rmul rsub l q
    | Transform q t => l_transform rO radd rmul rsub ropp l q t
    (* listener_position.cpp 119-134, 185-189, 231-243 *)
    | SetPosition p => Lst p (l_ori l) (l_time l) (l_face l) (l_num l)
    | SetOrientation q => Lst (l_pos l) q (l_time l) (l_face l) (l_num l)
    | SetMeta t f n => Lst (l_pos l) (l_ori l) t f n
    end.
  (** Specification: where the listener is, and where a direction given relative to the
      listener's head points in the room. *)
  Definition spec_listener : Type := pos3 A * (pos3 A -> pos3 A) * (nat * nat * nat).
  Definition spec_step (s : spec_listener) (o : lop) : spec_listener :=
    let '(p, look, m) := s in
    match o with
    | Translate t => (padd p t, look, m)
    | Rotate q => (turn q p, fun h => turn q (look h), m)
    | RotatePosition q => (turn q p, look, m)
    | RotateOrientation q => (p, fun h => turn q (look h), m)
    | Transform q t => (padd (turn q p) t, fun h => turn q (look h), m)
    | SetPosition p' => (p', look, m)
    | SetOrientation q => (p, turn q, m)
    | SetMeta t f n => (p, look, (t, f, n))
    end.
  Definition op_unit (o : lop) : Prop :=
    match o with
    | Rotate q | RotateOrientation q | Transform q _ | SetOrientation q => qnormsq q = rI
    | _ => True
    end.

  (** C48, second part: every sequence of movements of a listener moves their position and
      the direction they look at by the rotations and translations requested, a transform
      being a rotation followed by a translation; orientations stay unit quaternions. *)
  Theorem C48_listener_motion (ops : list lop) (l := fold_left lstep ops (l_default rO rI)) :
    let '(p, look, m) := fold_left spec_step ops (P3 rO rO rO, fun h => h, (0, 0, 1)%nat) in
    l_pos l = p /\ (forall h, protate h (l_ori l) = look h) /\ m = (l_time l, l_face l, l_num l) /\
    (Forall op_unit ops -> qnormsq (l_ori l) = rI).
  Proof using RT.
    assert (T : forall q p, protate p q = turn q p).
    { intros. apply (rotate_formula _ _ _ _ _ _ RT). }
    assert (G : forall ops l p look m,
      l_pos l = p -> (forall h, protate h (l_ori l) = look h) -> m = (l_time l, l_face l, l_num l) ->
      let '(p', look', m') := fold_left spec_step ops (p, look, m) in
      let l' := fold_left lstep ops l in
      l_pos l' = p' /\ (forall h, protate h (l_ori l') = look' h) /\ m' = (l_time l', l_face l', l_num l') /\
      (qnormsq (l_ori l) = rI -> Forall op_unit ops -> qnormsq (l_ori l') = rI)).
    { clear l ops. induction ops as [|o ops IH]; intros l p look m Hp Hl Hm.
      { cbn. intuition. }
      assert (N : forall q, qnormsq (l_ori l) = rI -> qnormsq q = rI -> qnormsq (qmul q (l_ori l)) = rI).
      { intros q E F. rewrite (normsq_mul _ _ _ _ _ _ RT), E, F. ring. }
      assert (C : forall q h, protate h (qmul q (l_ori l)) = turn q (look h)).
      { intros q h. rewrite <- (rotate_compose _ _ _ _ _ _ RT), Hl. apply T. }
      cbn [fold_left].
      assert (K : forall l1 p1 look1 m1,
        spec_step (p, look, m) o = (p1, look1, m1) -> lstep l o = l1 ->
        l_pos l1 = p1 -> (forall h, protate h (l_ori l1) = look1 h) -> m1 = (l_time l1, l_face l1, l_num l1) ->
        (qnormsq (l_ori l) = rI -> op_unit o -> qnormsq (l_ori l1) = rI) ->
        let '(p', look', m') := fold_left spec_step ops (spec_step (p, look, m) o) in
        let l' := fold_left lstep ops (lstep l o) in
        l_pos l' = p' /\ (forall h, protate h (l_ori l') = look' h) /\ m' = (l_time l', l_face l', l_num l') /\
        (qnormsq (l_ori l) = rI -> Forall op_unit (o :: ops) -> qnormsq (l_ori l') = rI)).
      { intros l1 p1 look1 m1 Es El A1 A2 A3 A4. rewrite Es, El.
        specialize (IH l1 p1 look1 m1 A1 A2 A3).
        destruct (fold_left spec_step ops (p1, look1, m1)) as [[p' look'] m'].
        destruct IH as (B1 & B2 & B3 & B4). do 3 (split; [assumption|]).
        intros U F. apply B4; [apply A4; [assumption|now apply Forall_inv in F]|now apply Forall_inv_tail in F]. }
      destruct o; eapply K; try reflexivity; cbn [lstep spec_step]; cbn [l_pos l_ori l_translate l_rotate
        l_rotatePosition l_rotateOrientation l_transform l_time l_face l_num op_unit];
        subst p m; auto; try (intros; now rewrite T). }
    specialize (G ops (l_default rO rI) (P3 rO rO rO) (fun h => h) (0, 0, 1)%nat eq_refl).
    fold l in G. destruct (fold_left spec_step ops _) as [[p look] m].
    destruct G as (A1 & A2 & A3 & A4); [|reflexivity|].
    - intros h. cbn [l_default l_make l_ori]. apply (rotate_identity _ _ _ _ _ _ RT).
    - do 3 (split; [assumption|]). apply A4. cbn [l_default l_make l_ori].
      cbv [QuaternionModel.qnormsq qdefault qw qx qy qz]. ring.
  Qed.
End Rotations.
Print Assumptions C48_rotation.
Print Assumptions C48_listener_motion.

(** A quarter turn about z takes x to y, half a turn about x then negates y. *)
Example C48_example :
  let rot := protate 0%Z Z.add Z.mul Z.sub Z.opp in
  qnormsq Z.add Z.mul (Q4 0 1 0 0)%Z = 1%Z /\ rot (P3 1 2 3)%Z (Q4 0 1 0 0)%Z = P3 1%Z (-2)%Z (-3)%Z /\
  l_pos (fold_left (lstep 0%Z Z.add Z.mul Z.sub Z.opp)
           [SetPosition (P3 1 2 3)%Z; Transform (Q4 0 1 0 0)%Z (P3 10 20 30)%Z; Rotate (Q4 0 0 0 1)%Z]
           (l_default 0%Z 1%Z)) = P3 (-11)%Z (-18)%Z 27%Z.
Proof. repeat split. Qed.

(** ** C52: Euler angles and rotation vectors *)
(** setYPR produces the unit quaternion of: roll about x, then pitch about y, then yaw about z. *)
Theorem C52_euler_rotation (y p r : R) (v : pos3 R) :
  Rqnormsq (setYPR y p r) = 1 /\ Rprotate v (setYPR y p r) = rotz y (roty p (rotx r v)).
Proof. split; [apply setYPR_unit|apply setYPR_rotation]. Qed.
Print Assumptions C52_euler_rotation.
Theorem C52_euler_roundtrip (y p r : R) :
  - PI < y <= PI -> - (PI / 2) < p < PI / 2 -> - PI < r <= PI ->
  yaw (setYPR y p r) = y /\ pitch (setYPR y p r) = p /\ roll (setYPR y p r) = r.
Proof. apply ypr_roundtrip. Qed.
Print Assumptions C52_euler_roundtrip.
(** The angles read from a unit quaternion describe the same rotation, unless it turns the
    x axis straight up or down. *)
Theorem C52_euler_represents (q : quat R) :
  Rqnormsq q = 1 -> Rabs (pz (Rprotate (P3 1 0 0) q)) < 1 ->
  forall v, Rprotate v (setYPR (yaw q) (pitch q) (roll q)) = Rprotate v q.
Proof.
  intros U G. apply ypr_represents; [assumption|]. destruct (entries q U) as (_ & _ & C & _).
  unfold ex in C. rewrite C in G. now rewrite Rabs_Ropp in G.
Qed.
Print Assumptions C52_euler_represents.
Lemma atan2_00 : atan2 0 0 = 0.
Proof. unfold atan2. now rewrite (proj2 (Rltb_false 0 0)) by lra. Qed.
Lemma gimbal_angles : let q := setYPR (PI / 2) (PI / 2) 0 in yaw q = 0 /\ pitch q = PI / 2 /\ roll q = 0.
Proof.
  intros q. destruct (ypr_entries (PI / 2) (PI / 2) 0) as (A & B & C & D & E). fold q in A, B, C, D, E.
  unfold yaw, pitch, roll. rewrite A, B, C, D, E, cos_PI2, sin_PI2, !Rmult_0_l, !atan2_00.
  rewrite Rabs_R1, (proj2 (Rleb_spec 1 1)), (proj2 (Rltb_false 1 0)) by lra. auto.
Qed.
(** Where it does (gimbal lock) the angles read describe a different rotation. *)
Theorem C52_gimbal_lock_refuted :
  exists q v, Rqnormsq q = 1 /\ Rprotate v (setYPR (yaw q) (pitch q) (roll q)) <> Rprotate v q.
Proof.
  exists (setYPR (PI / 2) (PI / 2) 0), (P3 0 1 0). split; [apply setYPR_unit|].
  destruct gimbal_angles as (-> & -> & ->). rewrite !setYPR_rotation.
  unfold rotz, roty, rotx. cbn [px py pz]. rewrite cos_PI2, sin_PI2, cos_0, sin_0. intros H.
  apply (f_equal py) in H. cbn [py] in H. lra.
Qed.
Print Assumptions C52_gimbal_lock_refuted.

Section Eps.
  Variable epsilon : R.
  Hypothesis eps_pos : 0 < epsilon <= 1.

  (** A rotation vector and angle give the unit quaternion of the rotation about the
      vector's direction by the angle (Rodrigues' formula); too short a vector is rejected. *)
  Theorem C52_rotation_vector (v : pos3 R) (a : R) :
    (pnorm v < epsilon -> setRotationVector epsilon v a = Throw RuntimeError) /\
    (epsilon <= pnorm v ->
     exists q n, setRotationVector epsilon v a = Ok q /\ Rqnormsq q = 1 /\
       Rpdot n n = 1 /\ v = Rpscale (pnorm v) n /\
       (forall p, Rprotate p q = Rpadd (Rpadd (Rpscale (cos a) p) (Rpscale (sin a) (cross Rmult Rminus n p)))
                                       (Rpscale ((1 - cos a) * Rpdot n p) n)) /\
       (0 <= a <= 2 * PI -> rotationAngle q = a /\
          (epsilon < sin (/ 2 * a) -> rotationVector epsilon q = Ok n))).
  Proof using eps_pos.
    split.
    { intros H. unfold setRotationVector. now rewrite pnormalise_throw. }
    intros H. destruct (rv_ok epsilon eps_pos v a H) as (n & E & U & V & S).
    eexists _, n. split; [exact S|]. split; [now apply rv_unit|]. do 2 (split; [assumption|]).
    split; [intros; now apply rv_rotation|]. intros B. now apply (rv_accessors epsilon eps_pos n a U B).
  Qed.
  (** Rotation vector and angle read from a unit quaternion give it back. *)
  Theorem C52_rotation_vector_roundtrip (q : quat R) :
    Rqnormsq q = 1 -> qvnorm q = 0 \/ epsilon < qvnorm q ->
    exists v, rotationVector epsilon q = Ok v /\ setRotationVector epsilon v (rotationAngle q) = Ok q.
  Proof using eps_pos. apply (rv_roundtrip epsilon eps_pos). Qed.

  Lemma qnorm_sq q : qnorm q * qnorm q = Rqnormsq q.
  Proof using. unfold qnorm. apply sqrt_sqrt, sum4_nonneg. Qed.
  Lemma qnorm_unit q : Rqnormsq q = 1 -> qnorm q = 1.
  Proof using. unfold qnorm. intros ->. apply sqrt_1. Qed.
  (** Normalising: a positive multiple (or, with adjustSign, a multiple with nonnegative w)
      of norm one. *)
  Theorem C52_normalise (q : quat R) (adjustSign : bool) :
    (qnorm q < epsilon -> qnormalise epsilon q adjustSign false = Throw RuntimeError) /\
    (epsilon <= qnorm q ->
     exists c, qnormalise epsilon q adjustSign false = Ok (Rqscale c q) /\ Rqnormsq (Rqscale c q) = 1 /\
       (adjustSign = false -> 0 < c) /\ (adjustSign = true -> 0 <= qw (Rqscale c q))).
  Proof using eps_pos.
    unfold qnormalise. cbn [negb andb]. split; intros H.
    { now rewrite (proj2 (Rltb_spec _ _) H). }
    rewrite (proj2 (Rltb_false _ _) H). cbv zeta. rewrite rdiv_ok by lra. cbn [bind].
    set (s := if adjustSign && Rltb (qw q) 0 then -1 else 1).
    assert (S1 : s * s = 1) by (unfold s; destruct (adjustSign && Rltb (qw q) 0); ring).
    eexists. split; [reflexivity|]. split.
    { transitivity ((s * s) / (qnorm q * qnorm q) * Rqnormsq q).
      - destruct q as [w x y z]. unfold Rqnormsq, Rqscale, qnormsq, qscale. cbn [qw qx qy qz]. field. lra.
      - rewrite S1, qnorm_sq. rewrite <- qnorm_sq. field. lra. }
    assert (P : 0 < 1 / qnorm q) by (apply Rdiv_lt_0_compat; lra).
    split; intros Ea; subst adjustSign; unfold s; cbn [andb].
    - assumption.
    - unfold Rqscale, qscale. cbn [qw]. destruct (Rltb (qw q) 0) eqn:E.
      + apply Rltb_spec in E. replace (-1 / qnorm q * qw q) with (1 / qnorm q * - qw q) by (field; lra).
        apply Rmult_le_pos; lra.
      + apply Rltb_false in E. apply Rmult_le_pos; lra.
  Qed.
End Eps.
Print Assumptions C52_rotation_vector.
Print Assumptions C52_rotation_vector_roundtrip.
Print Assumptions C52_normalise.
(** The constructor's [normalise] argument has no effect. *)
Theorem C52_constructor_normalise_refuted : exists w x y z, Rqnormsq (qctor w x y z true) <> 1.
Proof. exists 2, 0, 0, 0. unfold Rqnormsq, qnormsq, qctor. cbn [qw qx qy qz]. lra. Qed.
Print Assumptions C52_constructor_normalise_refuted.

(** ** C53: angles *)
Section Angles.
  Variable epsilon : R.
  Hypothesis eps_pos : 0 < epsilon <= 1.

  Lemma clip_max x : -1 <= x <= 1 -> Rmax (-1) (Rmin 1 x) = x.
  Proof using. intros H. rewrite Rmin_right, Rmax_right by lra. reflexivity. Qed.
  Lemma angleNormalised_unit a b : Rpdot a a = 1 -> Rpdot b b = 1 ->
    pangleNormalised a b = acos (Rpdot a b) /\ 0 <= pangleNormalised a b <= PI /\
    cos (pangleNormalised a b) = Rpdot a b.
  Proof using.
    intros A B. pose proof (clip_dot a b A B) as C. unfold pangleNormalised. rewrite clip_max by assumption.
    split; [reflexivity|]. split; [apply acos_bound|now apply cos_acos].
  Qed.

  (** The angle between two positions is the one subtended at the origin. *)
  Theorem C53_position_angle (a b : pos3 R) :
    (pnorm a < epsilon \/ pnorm b < epsilon -> pangle epsilon a b = Throw RuntimeError) /\
    (epsilon <= pnorm a -> epsilon <= pnorm b ->
     exists w, pangle epsilon a b = Ok w /\ 0 <= w <= PI /\ pnorm a * pnorm b * cos w = Rpdot a b).
  Proof using eps_pos.
    unfold pangle. split.
    - intros H. destruct (Rlt_dec (pnorm a) epsilon) as [L|L]; [now rewrite pnormalise_throw|].
      destruct (pnormalise_ok epsilon eps_pos a ltac:(lra)) as [-> _]. cbn [bind].
      destruct H as [H|H]; [contradiction|]. now rewrite pnormalise_throw.
    - intros Ha Hb. destruct (pnormalise_ok epsilon eps_pos a Ha) as [-> Ua].
      destruct (pnormalise_ok epsilon eps_pos b Hb) as [-> Ub]. cbn [bind].
      destruct (angleNormalised_unit _ _ Ua Ub) as (_ & B & C).
      eexists. split; [reflexivity|]. split; [assumption|]. rewrite C.
      transitivity (pnorm a * pnorm b * (1 / pnorm a * (1 / pnorm b) * Rpdot a b)).
      + f_equal. destruct a as [a1 a2 a3], b as [b1 b2 b3]. unf. ring.
      + field. lra.
  Qed.

  Lemma qnormalise_unit q : Rqnormsq q = 1 -> qnormalise epsilon q false false = Ok q.
  Proof using eps_pos.
    intros U. unfold qnormalise. rewrite (qnorm_unit q U). cbn [negb andb].
    rewrite (proj2 (Rltb_false 1 epsilon)) by lra. rewrite rdiv_ok by lra. cbn [bind]. f_equal.
    destruct q as [w x y z]. apply Q4_eq; cbv [Rqscale qscale qw qx qy qz]; field.
  Qed.

  (** The angle between two orientations should be the angle of the rotation taking one to
      the other; it is not: for a third of a turn a quarter turn is reported. *)
  Theorem C53_quaternion_angle_refuted :
    exists v a q, setRotationVector epsilon v a = Ok q /\ 0 <= a <= PI /\ Rqnormsq q = 1 /\
      exists w, qangle epsilon (qdefault 0 1) q = Ok w /\ w <> a.
  Proof using eps_pos.
    exists (P3 1 0 0), (2 * PI / 3).
    assert (N : Rpdot (P3 1 0 0) (P3 1 0 0) = 1) by (unf; ring).
    unfold setRotationVector. rewrite (pnormalise_unit epsilon eps_pos _ N). cbn [bind].
    eexists. split; [reflexivity|]. pose proof PI_RGT_0 as PP. split; [lra|].
    assert (U := rv_unit (P3 1 0 0) (2 * PI / 3) N).
    split; [exact U|]. unfold qangle.
    rewrite (qnormalise_unit (qdefault 0 1)) by (unfold Rqnormsq, qnormsq, qdefault; cbn [qw qx qy qz]; ring).
    rewrite (qnormalise_unit _ U). cbn [bind]. eexists. split; [reflexivity|].
    unfold qangleNormalised.
    replace (Rqdot (qdefault 0 1) _) with (cos (PI / 3))
      by (unfold Rqdot, qdot, qdefault; cbn [qw qx qy qz]; replace (/ 2 * (2 * PI / 3)) with (PI / 3) by field; ring).
    rewrite cos_PI3, Rabs_pos_eq by lra.
    assert (B : -1 <= sqrt (1 / 2) <= 1).
    { pose proof (sqrt_pos (1 / 2)). split; [lra|].
      assert (S1 : sqrt (1 / 2) <= sqrt 1) by (apply sqrt_le_1_alt; lra). now rewrite sqrt_1 in S1. }
    rewrite Rmin_left, Rmax_left by lra. intros E.
    assert (E' : acos (sqrt (1 / 2)) = PI / 3) by lra.
    apply (f_equal cos) in E'. rewrite cos_acos, cos_PI3 in E' by assumption.
    assert (sqrt (1 / 2) * sqrt (1 / 2) = 1 / 2) by (apply sqrt_sqrt; lra). rewrite E' in *. lra.
  Qed.

  (** What does hold of it: it lies between 0 and pi, does not depend on the order, nor on
      the sign of the quaternions, nor on a common rotation; it is 0 exactly when the two
      orientations agree and pi exactly when they are half a turn apart. *)
  Theorem C53_quaternion_angle_partial (a b : quat R) :
    Rqnormsq a = 1 -> Rqnormsq b = 1 ->
    exists w, qangle epsilon a b = Ok w /\ 0 <= w <= PI /\ qangle epsilon b a = Ok w /\
      qangle epsilon a (qneg Ropp b) = Ok w /\
      (forall c, Rqnormsq c = 1 -> qangle epsilon (Rqmul c a) (Rqmul c b) = Ok w) /\
      (w = 0 <-> a = b \/ a = qneg Ropp b) /\
      (w = PI <-> Rqdot a b = 0).
  Proof using eps_pos.
    intros A B. unfold qangle.
    assert (Bn : Rqnormsq (qneg Ropp b) = 1).
    { rewrite <- B. destruct b as [w x y z]. unfold qneg. unf. ring. }
    rewrite (qnormalise_unit _ A), (qnormalise_unit _ B), (qnormalise_unit _ Bn). cbn [bind].
    pose proof (clip_qdot a b A B) as C. set (d := Rqdot a b) in *.
    assert (Rng : 0 <= sqrt (Rabs d) <= 1).
    { split; [apply sqrt_pos|].
      assert (S1 : sqrt (Rabs d) <= sqrt 1) by (apply sqrt_le_1_alt, Rabs_le; lra). now rewrite sqrt_1 in S1. }
    assert (F : qangleNormalised a b = 2 * acos (sqrt (Rabs d))).
    { unfold qangleNormalised. fold d. rewrite Rmin_left, Rmax_left by lra. reflexivity. }
    eexists. split; [reflexivity|].
    assert (B0 : 0 <= acos (sqrt (Rabs d)) <= PI / 2).
    { split; [apply acos_bound|]. apply Rnot_lt_le. intros L.
      pose proof (acos_bound (sqrt (Rabs d))) as AB. pose proof PI_RGT_0 as PP.
      assert (H : cos (acos (sqrt (Rabs d))) < 0) by (apply cos_lt_0; lra). rewrite cos_acos in H; lra. }
    split; [rewrite F; lra|].
    split; [f_equal; unfold qangleNormalised; replace (Rqdot b a) with (Rqdot a b); [reflexivity|unfold Rqdot, qdot; ring]|].
    split.
    { f_equal. unfold qangleNormalised. replace (Rqdot a (qneg Ropp b)) with (- Rqdot a b).
      - now rewrite Rabs_Ropp.
      - destruct a as [a1 a2 a3 a4], b as [b1 b2 b3 b4]. unfold qneg. unf. ring. }
    split.
    { intros c Cu.
      assert (N : forall q, Rqnormsq q = 1 -> Rqnormsq (Rqmul c q) = 1).
      { intros q E. unfold Rqnormsq, Rqmul in *. rewrite (normsq_mul _ _ _ _ _ _ RT), Cu, E. ring. }
      rewrite (qnormalise_unit _ (N _ A)), (qnormalise_unit _ (N _ B)). cbn [bind]. f_equal.
      unfold qangleNormalised. replace (Rqdot (Rqmul c a) (Rqmul c b)) with (Rqdot a b); [reflexivity|].
      transitivity (Rqnormsq c * Rqdot a b); [rewrite Cu; ring|].
      destruct a as [a1 a2 a3 a4], b as [b1 b2 b3 b4], c as [c1 c2 c3 c4]. unf. ring. }
    rewrite F. split.
    - split.
      + intros E. assert (E' : acos (sqrt (Rabs d)) = 0) by lra.
        apply (f_equal cos) in E'. rewrite cos_acos, cos_0 in E' by lra.
        assert (D : Rabs d = 1).
        { rewrite <- (sqrt_sqrt (Rabs d)) by apply Rabs_pos. rewrite E'. ring. }
        destruct a as [a1 a2 a3 a4], b as [b1 b2 b3 b4].
        assert (Z4 : forall a b c e, a * a + b * b + c * c + e * e = 0 -> a = 0 /\ b = 0 /\ c = 0 /\ e = 0).
        { intros x y z t H. assert (Hs := Rle_0_sqr). unfold Rsqr in Hs.
          pose proof (Hs x). pose proof (Hs y). pose proof (Hs z). pose proof (Hs t).
          repeat split; apply Rsqr_0_uniq; unfold Rsqr; lra. }
        revert A B. unfold d in D. revert D. unf. intros D A B.
        destruct (Rle_dec 0 (a1 * b1 + a2 * b2 + a3 * b3 + a4 * b4)) as [P|P].
        * left. rewrite Rabs_pos_eq in D by assumption.
          destruct (Z4 (a1 - b1) (a2 - b2) (a3 - b3) (a4 - b4)) as (H1 & H2 & H3 & H4); [lra|].
          apply Q4_eq; cbn [qw qx qy qz]; lra.
        * right. rewrite Rabs_left in D by lra.
          destruct (Z4 (a1 + b1) (a2 + b2) (a3 + b3) (a4 + b4)) as (H1 & H2 & H3 & H4); [lra|].
          unfold qneg. cbn [qw qx qy qz]. apply Q4_eq; cbn [qw qx qy qz]; lra.
      + intros H. assert (D : Rabs d = 1).
        { destruct H as [H|H].
          - unfold d. rewrite H. replace (Rqdot b b) with (Rqnormsq b) by (destruct b as [b1 b2 b3 b4]; unf; ring).
            rewrite B. apply Rabs_R1.
          - unfold d. rewrite H. replace (Rqdot _ b) with (- Rqnormsq b) by (destruct b as [b1 b2 b3 b4]; unfold qneg; unf; ring).
            rewrite B, Rabs_Ropp. apply Rabs_R1. }
        rewrite D, sqrt_1, acos_1. ring.
    - split.
      + intros E. assert (E' : acos (sqrt (Rabs d)) = PI / 2) by lra.
        apply (f_equal cos) in E'. rewrite cos_acos, cos_PI2 in E' by lra.
        apply sqrt_eq_0 in E'; [|apply Rabs_pos].
        destruct (Req_dec d 0) as [->|N]; [reflexivity|]. now apply Rabs_no_R0 in N.
      + intros E. rewrite E, Rabs_R0, sqrt_0, acos_0. field.
  Qed.
End Angles.
Print Assumptions C53_position_angle.
Print Assumptions C53_quaternion_angle_refuted.
Print Assumptions C53_quaternion_angle_partial.

(** ** C54: spherical interpolation *)
Section Slerp.
  Variable epsilon : R.
  Hypothesis eps_pos : 0 < epsilon <= 1.

  Lemma slerp_coeff w t c0 c1 : sin w <> 0 -> c0 = 1 / sin w * sin ((1 - t) * w) -> c1 = 1 / sin w * sin (t * w) ->
    c0 * c0 + c1 * c1 + 2 * (c0 * c1) * cos w = 1 /\ c0 + c1 * cos w = cos (t * w).
  Proof using.
    intros N E0 E1. destruct (slerp_identities ((1 - t) * w) (t * w)) as [I1 I2].
    { replace ((1 - t) * w + t * w) with w by ring. assumption. }
    replace ((1 - t) * w + t * w) with w in I1, I2 by ring. subst c0 c1. split.
    - transitivity ((sin ((1 - t) * w) * sin ((1 - t) * w) + sin (t * w) * sin (t * w) +
                     2 * (sin ((1 - t) * w) * sin (t * w)) * cos w) / (sin w * sin w)); [field; assumption|].
      rewrite I1. field. assumption.
    - transitivity ((sin ((1 - t) * w) + sin (t * w) * cos w) / sin w); [field; assumption|].
      rewrite I2. field. assumption.
  Qed.

  (** The interpolated position lies in the plane of the two positions, its distance is the
      linear interpolation of their distances and its angle from the first is the fraction
      [t] of the angle between them.  Directions closer than [epsilon] are interpolated
      linearly. *)
  Theorem C54_position (p0 p1 : pos3 R) (w t : R) :
    epsilon <= pnorm p0 -> epsilon <= pnorm p1 -> pangle epsilon p0 p1 = Ok w -> 0 <= t <= 1 ->
    (w < epsilon -> pinterpolate epsilon p0 p1 t = Ok (Rpadd (Rpscale (1 - t) p0) (Rpscale t p1))) /\
    (epsilon <= w < PI ->
     exists r, pinterpolate epsilon p0 p1 t = Ok r /\ (exists a b, r = Rpadd (Rpscale a p0) (Rpscale b p1)) /\
       pnorm r = (1 - t) * pnorm p0 + t * pnorm p1 /\ Rpdot p0 r = pnorm p0 * pnorm r * cos (t * w)).
  Proof using eps_pos.
    intros H0 H1 Hw Ht. unfold pangle in Hw. unfold pinterpolate.
    destruct (pnormalise_ok epsilon eps_pos p0 H0) as [E0 U0].
    destruct (pnormalise_ok epsilon eps_pos p1 H1) as [E1 U1].
    rewrite E0, E1 in *. cbn [bind] in *. apply Ok_inj in Hw. rewrite Hw. split.
    { intros L. now rewrite (proj2 (Rltb_spec _ _) L). }
    intros L. rewrite (proj2 (Rltb_false w epsilon)) by lra.
    assert (S0 : 0 < sin w) by (apply sin_gt_0; lra).
    rewrite rdiv_ok by lra. cbn [bind]. cbv zeta. eexists. split; [reflexivity|].
    destruct (angleNormalised_unit _ _ U0 U1) as (_ & _ & C). rewrite Hw in C.
    set (n0 := Rpscale (1 / pnorm p0) p0) in *. set (n1 := Rpscale (1 / pnorm p1) p1) in *.
    set (c0 := 1 / sin w * sin ((1 - t) * w)). set (c1 := 1 / sin w * sin (t * w)).
    destruct (slerp_coeff w t c0 c1 ltac:(lra) eq_refl eq_refl) as [I1 I2].
    set (rad := (1 - t) * pnorm p0 + t * pnorm p1).
    assert (Rad : 0 <= rad).
    { unfold rad. pose proof (pnorm_nonneg p0). pose proof (pnorm_nonneg p1).
      apply Rplus_le_le_0_compat; apply Rmult_le_pos; lra. }
    assert (UD : pnorm (Rpadd (Rpscale c0 n0) (Rpscale c1 n1)) = 1).
    { unfold pnorm. change (pnormsq Rplus Rmult ?x) with (Rpdot x x). rewrite <- sqrt_1. f_equal.
      transitivity (c0 * c0 * Rpdot n0 n0 + c1 * c1 * Rpdot n1 n1 + 2 * (c0 * c1) * Rpdot n0 n1).
      - destruct n0 as [a1 a2 a3], n1 as [b1 b2 b3]. unf. ring.
      - rewrite U0, U1, <- C. lra. }
    assert (NR : pnorm (Rpscale rad (Rpadd (Rpscale c0 n0) (Rpscale c1 n1))) = rad).
    { rewrite pscale_norm by assumption. rewrite UD. ring. }
    split; [|split; [exact NR|]].
    - exists (rad * c0 * (1 / pnorm p0)), (rad * c1 * (1 / pnorm p1)). unfold n0, n1.
      destruct p0 as [a1 a2 a3], p1 as [b1 b2 b3]. apply P3_eq; cbv [Rpadd Rpscale padd pscale px py pz]; ring.
    - rewrite NR.
      assert (P0 : p0 = Rpscale (pnorm p0) n0).
      { unfold n0. destruct p0 as [a1 a2 a3]. apply P3_eq; cbv [Rpscale pscale px py pz]; field; lra. }
      rewrite P0 at 1.
      transitivity (pnorm p0 * rad * (c0 * Rpdot n0 n0 + c1 * Rpdot n0 n1)).
      + generalize (pnorm p0). intros m. destruct n0 as [a1 a2 a3], n1 as [b1 b2 b3].
        cbv [Rpdot pdot Rpscale pscale Rpadd padd px py pz]. ring.
      + rewrite U0, <- C, <- I2. ring.
  Qed.
  (** At the ends it meets the two positions. *)
  Theorem C54_position_ends (p0 p1 : pos3 R) (w : R) :
    epsilon <= pnorm p0 -> epsilon <= pnorm p1 -> pangle epsilon p0 p1 = Ok w -> w < PI ->
    pinterpolate epsilon p0 p1 0 = Ok p0 /\ pinterpolate epsilon p0 p1 1 = Ok p1.
  Proof using eps_pos.
    intros H0 H1 Hw L. unfold pangle in Hw. unfold pinterpolate.
    destruct (pnormalise_ok epsilon eps_pos p0 H0) as [E0 U0].
    destruct (pnormalise_ok epsilon eps_pos p1 H1) as [E1 U1].
    rewrite E0, E1 in *. cbn [bind] in *. apply Ok_inj in Hw. rewrite Hw.
    destruct (Rltb w epsilon) eqn:E.
    { split; f_equal; destruct p0 as [a1 a2 a3], p1 as [b1 b2 b3]; apply P3_eq;
        cbv [Rpadd Rpscale padd pscale px py pz]; ring. }
    apply Rltb_false in E. assert (S0 : 0 < sin w) by (apply sin_gt_0; lra).
    rewrite rdiv_ok by lra. cbn [bind]. cbv zeta.
    replace ((1 - 0) * w) with w by ring. replace ((1 - 1) * w) with 0 by ring.
    rewrite !Rmult_0_l, !Rmult_1_l, sin_0.
    split; f_equal; destruct p0 as [a1 a2 a3], p1 as [b1 b2 b3]; apply P3_eq;
      cbv [Rpadd Rpscale padd pscale px py pz]; field; lra.
  Qed.
  (** Opposite positions have no well-defined interpolation, which is not reported. *)
  Theorem C54_opposite_refuted :
    exists p0 p1, pnorm p0 = 1 /\ pnorm p1 = 1 /\ epsilon < 3 /\ pinterpolate epsilon p0 p1 (1 / 2) = UB.
  Proof using eps_pos.
    exists (P3 1 0 0), (P3 (-1) 0 0).
    assert (N0 : Rpdot (P3 1 0 0) (P3 1 0 0) = 1) by (unf; ring).
    assert (N1 : Rpdot (P3 (-1) 0 0) (P3 (-1) 0 0) = 1) by (unf; ring).
    split; [transitivity (sqrt 1); [unfold pnorm; f_equal; unf; ring|apply sqrt_1]|].
    split; [transitivity (sqrt 1); [unfold pnorm; f_equal; unf; ring|apply sqrt_1]|]. split; [lra|].
    unfold pinterpolate. rewrite (pnormalise_unit epsilon eps_pos _ N0), (pnormalise_unit epsilon eps_pos _ N1).
    cbn [bind]. destruct (angleNormalised_unit _ _ N0 N1) as (E & _ & _).
    assert (W : pangleNormalised (P3 1 0 0) (P3 (-1) 0 0) = PI).
    { rewrite E. replace (Rpdot (P3 1 0 0) (P3 (-1) 0 0)) with (cos PI) by (rewrite cos_PI; unf; ring).
      pose proof PI_RGT_0. apply acos_cos. lra. }
    rewrite W. rewrite (proj2 (Rltb_false PI epsilon)) by (pose proof PI2_1; lra).
    rewrite sin_PI. unfold rdiv. destruct (Req_EM_T 0 0); [reflexivity|contradiction].
  Qed.

  (** Unit quaternions: the interpolated quaternion is again a unit quaternion at the
      fraction [t] of the angle, and meets the arguments at the ends. *)
  Theorem C54_quaternion (a b : quat R) (t : R) (w := acos (Rqdot a b)) :
    Rqnormsq a = 1 -> Rqnormsq b = 1 -> -1 < Rqdot a b < 1 ->
    exists r, qinterpolate epsilon a b t = Ok r /\ Rqnormsq r = 1 /\ Rqdot a r = cos (t * w) /\
      Rqdot b r = cos ((1 - t) * w) /\ (t = 0 -> r = a) /\ (t = 1 -> r = b).
  Proof using eps_pos.
    intros A B D. unfold qinterpolate. rewrite !(qnormalise_unit epsilon eps_pos) by assumption. cbn [bind].
    rewrite Rmax_right, Rmin_right by lra. fold w. cbv zeta.
    assert (C : cos w = Rqdot a b) by (apply cos_acos; lra).
    assert (S0 : sin w <> 0).
    { unfold w. rewrite sin_acos by lra. intros Z. apply sqrt_eq_0 in Z; unfold Rsqr in *; nra. }
    rewrite !rdiv_ok by assumption. cbn [bind]. eexists. split; [reflexivity|].
    set (c0 := sin ((1 - t) * w) / sin w). set (c1 := sin (t * w) / sin w).
    destruct (slerp_coeff w t c0 c1 S0) as [I1 I2]; [unfold c0; field; assumption|unfold c1; field; assumption|].
    destruct (slerp_coeff w (1 - t) c1 c0 S0) as [I3 I4].
    { unfold c1. replace (1 - (1 - t)) with t by ring. field. assumption. }
    { unfold c0. field. assumption. }
    change (Rqnormsq a) with (Rqdot a a) in A. change (Rqnormsq b) with (Rqdot b b) in B.
    assert (L : forall x y z, Rqdot x (Rqadd (Rqscale c0 y) (Rqscale c1 z)) = c0 * Rqdot x y + c1 * Rqdot x z).
    { intros [x1 x2 x3 x4] [y1 y2 y3 y4] [z1 z2 z3 z4]. unf. ring. }
    assert (Sy : Rqdot b a = Rqdot a b) by (unfold Rqdot, qdot; ring).
    split; [|split; [|split; [|split]]].
    - change (Rqnormsq ?x) with (Rqdot x x).
      transitivity (c0 * c0 * Rqdot a a + c1 * c1 * Rqdot b b + 2 * (c0 * c1) * Rqdot a b).
      + destruct a as [a1 a2 a3 a4], b as [b1 b2 b3 b4]. unf. ring.
      + rewrite A, B, <- C. lra.
    - rewrite L, A, <- C. lra.
    - rewrite L, Sy, B, <- C. lra.
    - intros ->. unfold c0, c1. replace ((1 - 0) * w) with w by ring. rewrite Rmult_0_l, sin_0.
      destruct a as [a1 a2 a3 a4], b as [b1 b2 b3 b4]. apply Q4_eq; cbv [Rqadd Rqscale qadd qscale qw qx qy qz]; field; assumption.
    - intros ->. unfold c0, c1. replace ((1 - 1) * w) with 0 by ring. rewrite Rmult_1_l, sin_0.
      destruct a as [a1 a2 a3 a4], b as [b1 b2 b3 b4]. apply Q4_eq; cbv [Rqadd Rqscale qadd qscale qw qx qy qz]; field; assumption.
  Qed.
  (** Between equal orientations (or an orientation and its negative, the same rotation)
      the result is 0/0. *)
  Theorem C54_equal_refuted (q : quat R) (t : R) :
    Rqnormsq q = 1 -> qinterpolate epsilon q q t = UB /\ qinterpolate epsilon q (qneg Ropp q) t = UB.
  Proof using eps_pos.
    intros U.
    assert (Un : Rqnormsq (qneg Ropp q) = 1).
    { rewrite <- U. destruct q as [w x y z]. unfold qneg. unf. ring. }
    unfold qinterpolate. rewrite !(qnormalise_unit epsilon eps_pos) by assumption. cbn [bind].
    replace (Rqdot q q) with 1 by (rewrite <- U; reflexivity).
    replace (Rqdot q (qneg Ropp q)) with (-1)
      by (transitivity (- Rqnormsq q); [rewrite U; ring|destruct q as [w x y z]; unfold qneg; unf; ring]).
    rewrite (Rmax_right (-1) 1), (Rmax_left (-1) (-1)), (Rmin_left 1 1), (Rmin_right 1 (-1)) by lra.
    replace (acos (-1)) with PI by (rewrite <- cos_PI, acos_cos; pose proof PI_RGT_0; lra).
    rewrite acos_1, sin_0, sin_PI. unfold rdiv. destruct (Req_EM_T 0 0); [split; reflexivity|contradiction].
  Qed.
End Slerp.
Print Assumptions C54_position.
Print Assumptions C54_position_ends.
Print Assumptions C54_opposite_refuted.
Print Assumptions C54_quaternion.
Print Assumptions C54_equal_refuted.

(** ** C55: the JSON form of the listener position *)
Section Json.
  Variable epsilon : R.
  Hypothesis eps_pos : 0 < epsilon <= 1.

  (** Writing and reading back returns the listener position: exactly in the quaternion
      format and, for unit quaternions, in the rotation vector format. *)
  Theorem C55_json_roundtrip (l : listener R) :
    (exists t, writeJson epsilon QuaternionFormat l = Ok t /\ parseJson epsilon t = Ok l) /\
    (Rqnormsq (l_ori l) = 1 -> qvnorm (l_ori l) = 0 \/ epsilon < qvnorm (l_ori l) ->
     exists t, writeJson epsilon RotationVector l = Ok t /\ parseJson epsilon t = Ok l).
  Proof using eps_pos.
    assert (Z : forall k, get 0%nat (if Nat.eqb k 0 then None else Some k) = k).
    { intros k. destruct (Nat.eqb k 0) eqn:E; [apply Nat.eqb_eq in E; now subst|reflexivity]. }
    destruct l as [[x y z] [w a b c] tm fc nm]. cbn [l_ori]. split.
    - eexists. split; [reflexivity|]. unfold parseJson. cbn. now rewrite !Z.
    - intros U H. destruct (rv_roundtrip epsilon eps_pos _ U H) as (v & E1 & E2).
      unfold writeJson, writeOrientation. cbn [l_ori]. rewrite E1. cbn [bind]. eexists. split; [reflexivity|].
      unfold parseJson. cbn. rewrite degree_radian. destruct v as [v1 v2 v3]. cbn [px py pz]. rewrite E2. cbn. now rewrite !Z.
  Qed.
  (** In the yaw/pitch/roll format everything but the representation of the orientation
      comes back and the orientation is the same rotation, unless it is in gimbal lock. *)
  Theorem C55_json_ypr_partial (l : listener R) :
    Rqnormsq (l_ori l) = 1 -> Rabs (pz (Rprotate (P3 1 0 0) (l_ori l))) < 1 ->
    exists t l', writeJson epsilon YPR l = Ok t /\ parseJson epsilon t = Ok l' /\
      l_pos l' = l_pos l /\ l_time l' = l_time l /\ l_face l' = l_face l /\ l_num l' = l_num l /\
      forall v, Rprotate v (l_ori l') = Rprotate v (l_ori l).
  Proof using.
    assert (Z : forall k, get 0%nat (if Nat.eqb k 0 then None else Some k) = k).
    { intros k. destruct (Nat.eqb k 0) eqn:E; [apply Nat.eqb_eq in E; now subst|reflexivity]. }
    intros U G. pose proof (C52_euler_represents (l_ori l) U G) as H.
    destruct l as [[x y z] q tm fc nm]. cbn [l_ori] in *.
    eexists _, _. split; [reflexivity|]. unfold parseJson. cbn. rewrite !degree_radian, !Z. split; [reflexivity|].
    cbn [l_pos l_time l_face l_num l_ori]. repeat split. exact H.
  Qed.
  Theorem C55_json_ypr_refuted :
    exists l t l' v, Rqnormsq (l_ori l) = 1 /\ writeJson epsilon YPR l = Ok t /\ parseJson epsilon t = Ok l' /\
      Rprotate v (l_ori l') <> Rprotate v (l_ori l).
  Proof using.
    destruct C52_gimbal_lock_refuted as (q & v & U & H).
    exists (l_make (P3 0 0 0) q). eexists _, _, v. split; [exact U|]. split; [reflexivity|].
    unfold parseJson. cbn. rewrite !degree_radian. split; [reflexivity|]. cbn [l_ori]. exact H.
  Qed.
  (** At most one of the three orientation formats is accepted. *)
  Theorem C55_json_ambiguous (t : tree) (o : orientationTree) :
    t_ori t = Some o ->
    (isSome (ot_quat o) = true /\ isSome (ot_rv o) = true) \/
    (isSome (ot_quat o) || isSome (ot_rv o) = true /\
     isSome (ot_yaw o) || isSome (ot_pitch o) || isSome (ot_roll o) = true) ->
    parseJson epsilon t = Throw InvalidArgument.
  Proof using.
    clear eps_pos. intros E H. unfold parseJson. rewrite E. unfold parseOrientation.
    destruct o as [[?|] [?|] [?|] [?|] [?|]]; cbn in *; try reflexivity; intuition discriminate.
  Qed.
  (** Every field may be missing: it then has the value of a default constructed
      listener position; a field that is present is taken as it is. *)
  Theorem C55_json_defaults (t : tree) (l : listener R) :
    parseJson epsilon t = Ok l ->
    px (l_pos l) = match t_x t with Some x => x | None => 0 end /\
    py (l_pos l) = match t_y t with Some y => y | None => 0 end /\
    pz (l_pos l) = match t_z t with Some z => z | None => 0 end /\
    (t_ori t = None -> l_ori l = Q4 1 0 0 0) /\
    l_time l = match t_time t with Some n => n | None => 0%nat end /\
    l_face l = match t_face t with Some n => n | None => 0%nat end /\
    l_num l = match t_num t with Some n => n | None => 1%nat end.
  Proof using.
    clear eps_pos. unfold parseJson.
    destruct (t_ori t) as [o|].
    - destruct (parseOrientation epsilon o); cbn; try discriminate.
      intros E. apply Ok_inj in E. rewrite <- E. cbn. repeat split. discriminate.
    - cbn. intros E. apply Ok_inj in E. rewrite <- E. cbn. repeat split.
  Qed.
End Json.
Print Assumptions C55_json_roundtrip.
Print Assumptions C55_json_defaults.
Print Assumptions C55_json_ypr_partial.
Print Assumptions C55_json_ypr_refuted.
Print Assumptions C55_json_ambiguous.

(** Non-trivial instances of the hypotheses. *)
Example C52_example :
  - PI < PI / 3 <= PI /\ - (PI / 2) < - PI / 4 < PI / 2 /\ - PI < PI <= PI /\
  yaw (setYPR (PI / 3) (- PI / 4) PI) = PI / 3 /\
  Rqnormsq (Q4 (3 / 5) 0 0 (4 / 5)) = 1 /\ Rabs (pz (Rprotate (P3 1 0 0) (Q4 (3 / 5) 0 0 (4 / 5)))) < 1.
Proof.
  pose proof PI_RGT_0. split; [lra|]. split; [lra|]. split; [lra|].
  split; [apply ypr_roundtrip; lra|]. split; [unf; field|].
  replace (pz (Rprotate (P3 1 0 0) (Q4 (3 / 5) 0 0 (4 / 5)))) with 0 by (unf; field). rewrite Rabs_R0. lra.
Qed.
Example C52_example_vector :
  (1 / 10 <= pnorm (P3 0 3 4)) /\ 1 / 10 < sin (/ 2 * PI) /\ Rqnormsq (Q4 (3 / 5) 0 (4 / 5) 0) = 1 /\
  1 / 10 < qvnorm (Q4 (3 / 5) 0 (4 / 5) 0).
Proof.
  assert (pnorm (P3 0 3 4) = 5).
  { unfold pnorm. replace (pnormsq Rplus Rmult (P3 0 3 4)) with (5 * 5) by (unf; ring). apply sqrt_square. lra. }
  assert (qvnorm (Q4 (3 / 5) 0 (4 / 5) 0) = 4 / 5).
  { unfold qvnorm. cbn [qx qy qz]. replace (0 * 0 + 4 / 5 * (4 / 5) + 0 * 0) with (4 / 5 * (4 / 5)) by ring. apply sqrt_square. lra. }
  split; [lra|]. split; [|split; [unf; field|lra]].
  replace (/ 2 * PI) with (PI / 2) by field. rewrite sin_PI2. lra.
Qed.
Example C53_C54_example :
  pangle (1 / 10) (P3 2 0 0) (P3 0 3 0) = Ok (PI / 2) /\ -1 < Rqdot (Q4 1 0 0 0) (Q4 (3 / 5) (4 / 5) 0 0) < 1 /\
  Rqnormsq (Q4 (3 / 5) (4 / 5) 0 0) = 1.
Proof.
  split; [|split; unf; lra].
  assert (N2 : pnorm (P3 2 0 0) = 2).
  { unfold pnorm. replace (pnormsq Rplus Rmult (P3 2 0 0)) with (2 * 2) by (unf; ring). apply sqrt_square. lra. }
  assert (N3 : pnorm (P3 0 3 0) = 3).
  { unfold pnorm. replace (pnormsq Rplus Rmult (P3 0 3 0)) with (3 * 3) by (unf; ring). apply sqrt_square. lra. }
  destruct (C53_position_angle (1 / 10) ltac:(lra) (P3 2 0 0) (P3 0 3 0)) as [_ H].
  destruct H as (w & E & B & C); [lra..|]. rewrite E. f_equal.
  rewrite N2, N3 in C. replace (Rpdot (P3 2 0 0) (P3 0 3 0)) with 0 in C by (unf; ring).
  assert (Cw : cos w = 0) by lra. pose proof PI_RGT_0.
  destruct (Rtotal_order w (PI / 2)) as [L|[L|L]]; [|assumption|].
  - assert (0 < cos w) by (apply cos_gt_0; lra). lra.
  - assert (cos w < 0) by (apply cos_lt_0; lra). lra.
Qed.
