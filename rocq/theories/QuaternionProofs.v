(** Proofs about quaternions, positions and the listener position. *)
From Verif Require Import Base QuaternionModel.
From Coq Require Import Ring.

Section RingProofs.
  Context {A : Type} (rO rI : A) (radd rmul rsub : A -> A -> A) (ropp : A -> A).
  Hypothesis RT : ring_theory rO rI radd rmul rsub ropp eq.
  Add Ring Ar : RT.
  Local Infix "+" := radd. Local Infix "*" := rmul. Local Infix "-" := rsub.
  Local Notation qmul := (qmul radd rmul rsub).
  Local Notation qconj := (qconj ropp).
  Local Notation qnormsq := (qnormsq radd rmul).
  Local Notation protate := (protate rO radd rmul rsub ropp).
  Local Notation pdot := (pdot radd rmul).
  Local Notation padd := (padd radd).
  Local Notation pscale := (pscale rmul).

  Lemma P3_eq (a b : pos3 A) : px a = px b -> py a = py b -> pz a = pz b -> a = b.
  Proof using. destruct a, b; cbn; congruence. Qed.
  Lemma Q4_eq (a b : quat A) : qw a = qw b -> qx a = qx b -> qy a = qy b -> qz a = qz b -> a = b.
  Proof using. destruct a, b; cbn; congruence. Qed.

  Definition cross (a b : pos3 A) : pos3 A :=
    P3 (py a * pz b - pz a * py b) (pz a * px b - px a * pz b) (px a * py b - py a * px b).
  Definition vpart (q : quat A) : pos3 A := P3 (qx q) (qy q) (qz q).

  Lemma normsq_mul a b : qnormsq (qmul a b) = qnormsq a * qnormsq b.
  Proof using RT. destruct a as [a1 a2 a3 a4], b as [b1 b2 b3 b4]. cbv [QuaternionModel.qnormsq QuaternionModel.qmul qw qx qy qz]. ring. Qed.
  Lemma normsq_conj a : qnormsq (qconj a) = qnormsq a.
  Proof using RT. destruct a as [a1 a2 a3 a4]. cbv [QuaternionModel.qnormsq QuaternionModel.qconj qw qx qy qz]. ring. Qed.
  Lemma mul_assoc a b c : qmul (qmul a b) c = qmul a (qmul b c).
  Proof using RT.
    destruct a as [a1 a2 a3 a4], b as [b1 b2 b3 b4], c as [c1 c2 c3 c4]. apply Q4_eq; cbv [QuaternionModel.qmul qw qx qy qz]; ring.
  Qed.
  Lemma conj_mul a b : qconj (qmul a b) = qmul (qconj b) (qconj a).
  Proof using RT.
    destruct a as [a1 a2 a3 a4], b as [b1 b2 b3 b4]. apply Q4_eq; cbv [QuaternionModel.qmul QuaternionModel.qconj qw qx qy qz]; ring.
  Qed.
  Lemma conj_inv a : qnormsq a = rI -> qmul a (qconj a) = Q4 rI rO rO rO /\ qmul (qconj a) a = Q4 rI rO rO rO.
  Proof using RT.
    intros E. destruct a as [a1 a2 a3 a4]. cbv [QuaternionModel.qnormsq QuaternionModel.qmul QuaternionModel.qconj qw qx qy qz] in *.
    split; f_equal; try ring; rewrite <- E; ring.
  Qed.

  Ltac unf := cbv [QuaternionModel.protate QuaternionModel.pdot QuaternionModel.padd QuaternionModel.pscale
                   QuaternionModel.qmul QuaternionModel.qconj QuaternionModel.qnormsq cross vpart
                   px py pz qw qx qy qz].

  Lemma rotate_dot p p' q : pdot (protate p q) (protate p' q) = qnormsq q * qnormsq q * pdot p p'.
  Proof using RT. destruct p as [x1 x2 x3], p' as [y1 y2 y3], q as [q1 q2 q3 q4]. unf. ring. Qed.
  Lemma rotate_cross p p' q :
    cross (protate p q) (protate p' q) = pscale (qnormsq q) (protate (cross p p') q).
  Proof using RT. destruct p as [x1 x2 x3], p' as [y1 y2 y3], q as [q1 q2 q3 q4]. apply P3_eq; unf; ring. Qed.
  Lemma rotate_linear p p' a b q :
    protate (padd (pscale a p) (pscale b p')) q = padd (pscale a (protate p q)) (pscale b (protate p' q)).
  Proof using RT. destruct p as [x1 x2 x3], p' as [y1 y2 y3], q as [q1 q2 q3 q4]. apply P3_eq; unf; ring. Qed.
  Lemma rotate_compose p q1 q2 : protate (protate p q1) q2 = protate p (qmul q2 q1).
  Proof using RT. destruct p as [x1 x2 x3], q1 as [a1 a2 a3 a4], q2 as [b1 b2 b3 b4]. apply P3_eq; unf; ring. Qed.
  Lemma rotate_undo p q : protate (protate p q) (qconj q) = pscale (qnormsq q * qnormsq q) p.
  Proof using RT. destruct p as [x1 x2 x3], q as [q1 q2 q3 q4]. apply P3_eq; unf; ring. Qed.
  (** The rotation in vector form *)
  Lemma rotate_formula p q :
    protate p q =
    padd (padd (pscale (qw q * qw q - pdot (vpart q) (vpart q)) p)
               (pscale ((rI + rI) * pdot (vpart q) p) (vpart q)))
         (pscale ((rI + rI) * qw q) (cross (vpart q) p)).
  Proof using RT. destruct p as [x1 x2 x3], q as [q1 q2 q3 q4]. apply P3_eq; unf; ring. Qed.
  Lemma rotate_identity p : protate p (qdefault rO rI) = p.
  Proof using RT. destruct p as [x1 x2 x3]. apply P3_eq; cbv [qdefault]; unf; ring. Qed.
End RingProofs.

From Coq Require Import Reals Lra.
Local Open Scope R_scope.
Local Open Scope res_scope.

Lemma Rltb_spec x y : Rltb x y = true <-> x < y.
Proof. unfold Rltb. destruct (Rlt_dec x y); intuition; discriminate. Qed.
Lemma Rltb_false x y : Rltb x y = false <-> y <= x.
Proof.
  unfold Rltb. destruct (Rlt_dec x y) as [H|H]; intuition; try lra; try discriminate.
Qed.
Lemma Rleb_spec x y : Rleb x y = true <-> x <= y.
Proof. unfold Rleb. destruct (Rle_dec x y); intuition; discriminate. Qed.
Lemma Rleb_false x y : Rleb x y = false <-> y < x.
Proof. unfold Rleb. destruct (Rle_dec x y) as [H|H]; intuition; try lra; try discriminate. Qed.
Lemma rdiv_ok x y : y <> 0 -> rdiv x y = Ok (x / y).
Proof. unfold rdiv. destruct (Req_EM_T y 0); congruence. Qed.

Lemma sc2 a : sin a * sin a + cos a * cos a = 1.
Proof. exact (sin2_cos2 a). Qed.

Lemma tan_shift a : cos a <> 0 -> tan (a - PI) = tan a /\ tan (a + PI) = tan a.
Proof.
  intros C. unfold tan. rewrite sin_minus, cos_minus, sin_plus, cos_plus, sin_PI, cos_PI. split; field; lra.
Qed.

(** Polar coordinates *)
Lemma atan2_polar c a : 0 < c -> - PI < a <= PI -> atan2 (c * sin a) (c * cos a) = a.
Proof.
  intros Pc Ha. unfold atan2. pose proof PI_RGT_0 as PP.
  assert (Q : cos a <> 0 -> c * sin a / (c * cos a) = tan a).
  { intros N. unfold tan. field. lra. }
  destruct (Rltb 0 (c * cos a)) eqn:E1.
  { apply Rltb_spec in E1. assert (0 < cos a) by (apply (Rmult_lt_reg_l c); lra).
    rewrite Q by lra. apply atan_tan.
    split; apply Rnot_le_lt; intros L.
    - assert (cos a <= 0); [|lra].
      destruct (Req_dec a (- (PI / 2))) as [->|N]; [rewrite cos_neg, cos_PI2; lra|].
      rewrite <- (cos_neg a). apply Rlt_le, cos_lt_0; lra.
    - assert (cos a <= 0); [|lra].
      destruct (Req_dec a (PI / 2)) as [->|N]; [rewrite cos_PI2; lra|]. apply Rlt_le, cos_lt_0; lra. }
  apply Rltb_false in E1.
  assert (C0 : cos a <= 0) by (apply (Rmult_le_reg_l c); lra).
  destruct (Rltb (c * cos a) 0) eqn:E2.
  { apply Rltb_spec in E2. assert (C1 : cos a < 0) by (apply (Rmult_lt_reg_l c); lra).
    rewrite Q by lra.
    assert (B : PI / 2 < a \/ a < - (PI / 2)).
    { destruct (Rlt_dec (PI / 2) a) as [L|L]; [now left|]. right. apply Rnot_le_lt. intros L'.
      assert (0 <= cos a); [|lra]. apply cos_ge_0; lra. }
    destruct (tan_shift a ltac:(lra)) as [T1 T2].
    destruct B as [B|B].
    - assert (0 <= sin a) by (apply sin_ge_0; lra).
      rewrite (proj2 (Rleb_spec 0 _)) by (apply Rmult_le_pos; lra).
      rewrite <- T1, atan_tan by lra. lra.
    - assert (sin a < 0).
      { rewrite <- (Ropp_involutive (sin a)), <- sin_neg. apply Ropp_lt_gt_0_contravar. apply sin_gt_0; lra. }
      rewrite (proj2 (Rleb_false 0 _)).
      + rewrite <- T2, atan_tan by lra. lra.
      + replace 0 with (c * 0) by ring. apply Rmult_lt_compat_l; lra. }
  apply Rltb_false in E2.
  assert (C1 : cos a = 0). { assert (0 <= cos a) by (apply (Rmult_le_reg_l c); lra). lra. }
  assert (B : a = PI / 2 \/ a = - (PI / 2)).
  { destruct (Rtotal_order a (PI / 2)) as [L|[L|L]]; [|now left|].
    - destruct (Rtotal_order a (- (PI / 2))) as [L'|[L'|L']]; [|now right|].
      + assert (cos (- a) < 0) by (apply cos_lt_0; lra). rewrite cos_neg in *. lra.
      + assert (0 < cos a) by (apply cos_gt_0; lra). lra.
    - assert (cos a < 0) by (apply cos_lt_0; lra). lra. }
  destruct B as [-> | ->].
  - rewrite sin_PI2. rewrite (proj2 (Rltb_spec 0 _)) by lra. reflexivity.
  - rewrite sin_neg, sin_PI2. rewrite (proj2 (Rltb_false 0 _)) by lra.
    rewrite (proj2 (Rltb_spec _ 0)) by lra. reflexivity.
Qed.

Lemma atan2_exists x y : x * x + y * y <> 0 ->
  exists a, - PI < a <= PI /\ x = sqrt (x * x + y * y) * cos a /\ y = sqrt (x * x + y * y) * sin a.
Proof.
  intros N. pose proof PI_RGT_0 as PP.
  assert (P0 : 0 < x * x + y * y).
  { assert (0 <= x * x) by apply Rle_0_sqr. assert (0 <= y * y) by apply Rle_0_sqr. lra. }
  set (r := sqrt (x * x + y * y)). assert (Pr : 0 < r) by now apply sqrt_lt_R0.
  assert (Er : r * r = x * x + y * y) by (apply sqrt_sqrt; lra).
  assert (Bx : -1 <= x / r <= 1).
  { assert (x * x <= r * r) by (assert (0 <= y * y) by apply Rle_0_sqr; lra).
    split; apply (Rmult_le_reg_r r); try assumption; unfold Rdiv; rewrite Rmult_assoc, Rinv_l by lra; nra. }
  assert (Sx : sin (acos (x / r)) = Rabs y / r).
  { rewrite sin_acos by assumption. apply sqrt_lem_1.
    - unfold Rsqr. nra.
    - apply Rmult_le_pos; [apply Rabs_pos|]. left. now apply Rinv_0_lt_compat.
    - unfold Rsqr. replace (Rabs y / r * (Rabs y / r)) with ((Rabs y * Rabs y) / (r * r)) by (field; lra).
      replace (Rabs y * Rabs y) with (y * y) by (rewrite <- Rabs_mult, Rabs_pos_eq; [reflexivity|apply Rle_0_sqr]).
      replace (y * y) with (r * r - x * x) by lra. field. lra. }
  pose proof (acos_bound (x / r)) as AB.
  destruct (Rle_dec 0 y) as [L|L].
  - exists (acos (x / r)). split; [lra|]. rewrite cos_acos by assumption. rewrite Sx, Rabs_pos_eq by assumption.
    split; field; lra.
  - exists (- acos (x / r)). rewrite cos_neg, sin_neg, cos_acos by assumption. rewrite Sx, Rabs_left by lra.
    split.
    + split; [|lra]. apply Ropp_lt_contravar.
      destruct (Req_dec (acos (x / r)) PI) as [E|E]; [|lra]. exfalso.
      rewrite E, sin_PI in Sx. rewrite Rabs_left in Sx by lra.
      assert (0 < - y / r) by (apply Rmult_lt_0_compat; [lra|now apply Rinv_0_lt_compat]). lra.
    + split; field; lra.
Qed.
Lemma atan2_spec x y : x * x + y * y <> 0 ->
  - PI < atan2 y x <= PI /\
  sqrt (x * x + y * y) * cos (atan2 y x) = x /\ sqrt (x * x + y * y) * sin (atan2 y x) = y.
Proof.
  intros N. destruct (atan2_exists x y N) as (a & B & X & Y).
  assert (P0 : 0 < sqrt (x * x + y * y)).
  { apply sqrt_lt_R0. assert (0 <= x * x) by apply Rle_0_sqr. assert (0 <= y * y) by apply Rle_0_sqr. lra. }
  assert (E : atan2 y x = a). { rewrite X at 1. rewrite Y at 1. now apply atan2_polar. }
  rewrite E. repeat split; try apply B; lra.
Qed.

(** *** Euler angles *)
Lemma RT : ring_theory 0 1 Rplus Rmult Rminus Ropp eq.
Proof. exact RTheory. Qed.

(** Rotations about the coordinate axes *)
Definition rotx (a : R) (p : pos3 R) : pos3 R :=
  P3 (px p) (cos a * py p - sin a * pz p) (sin a * py p + cos a * pz p).
Definition roty (a : R) (p : pos3 R) : pos3 R :=
  P3 (cos a * px p + sin a * pz p) (py p) (- sin a * px p + cos a * pz p).
Definition rotz (a : R) (p : pos3 R) : pos3 R :=
  P3 (cos a * px p - sin a * py p) (sin a * px p + cos a * py p) (pz p).

Lemma half a : cos a = cos (a * / 2) * cos (a * / 2) - sin (a * / 2) * sin (a * / 2) /\
               sin a = 2 * sin (a * / 2) * cos (a * / 2).
Proof.
  split.
  - transitivity (cos (a * / 2 + a * / 2)); [f_equal; field | rewrite cos_plus; ring].
  - transitivity (sin (a * / 2 + a * / 2)); [f_equal; field | rewrite sin_plus; ring].
Qed.
Lemma half' a : cos a = cos (/ 2 * a) * cos (/ 2 * a) - sin (/ 2 * a) * sin (/ 2 * a) /\
               sin a = 2 * sin (/ 2 * a) * cos (/ 2 * a).
Proof. rewrite (Rmult_comm (/ 2) a). apply half. Qed.

Ltac unf := cbv [Rprotate Rqmul Rqnormsq Rqdot Rpdot Rpadd Rpscale Rqadd Rqscale protate pdot padd pscale
                 qmul qconj qnormsq qdot qadd qscale pnormsq
                 px py pz qw qx qy qz].

Lemma axis_x a p : Rprotate p (Q4 (cos (a * / 2)) (sin (a * / 2)) 0 0) = rotx a p.
Proof.
  destruct p as [x y z]. destruct (half a) as [C S]. pose proof (sc2 (a * / 2)) as E.
  unfold rotx. apply P3_eq; unf; [| rewrite C, S; ring .. ].
  transitivity (x * (sin (a * / 2) * sin (a * / 2) + cos (a * / 2) * cos (a * / 2))); [ring | rewrite E; ring].
Qed.
Lemma axis_y a p : Rprotate p (Q4 (cos (a * / 2)) 0 (sin (a * / 2)) 0) = roty a p.
Proof.
  destruct p as [x y z]. destruct (half a) as [C S]. pose proof (sc2 (a * / 2)) as E.
  unfold roty. apply P3_eq; unf; [rewrite C, S; ring | | rewrite C, S; ring].
  transitivity (y * (sin (a * / 2) * sin (a * / 2) + cos (a * / 2) * cos (a * / 2))); [ring | rewrite E; ring].
Qed.
Lemma axis_z a p : Rprotate p (Q4 (cos (a * / 2)) 0 0 (sin (a * / 2))) = rotz a p.
Proof.
  destruct p as [x y z]. destruct (half a) as [C S]. pose proof (sc2 (a * / 2)) as E.
  unfold rotz. apply P3_eq; unf; [rewrite C, S; ring .. | ].
  transitivity (z * (sin (a * / 2) * sin (a * / 2) + cos (a * / 2) * cos (a * / 2))); [ring | rewrite E; ring].
Qed.
Lemma setYPR_product y p r :
  setYPR y p r = Rqmul (Rqmul (Q4 (cos (y * / 2)) 0 0 (sin (y * / 2))) (Q4 (cos (p * / 2)) 0 (sin (p * / 2)) 0))
                       (Q4 (cos (r * / 2)) (sin (r * / 2)) 0 0).
Proof. apply Q4_eq; unfold setYPR; unf; ring. Qed.
Lemma setYPR_rotation y p r v : Rprotate v (setYPR y p r) = rotz y (roty p (rotx r v)).
Proof.
  rewrite setYPR_product. unfold Rprotate, Rqmul.
  rewrite <- !(rotate_compose _ _ _ _ _ _ RT). fold Rprotate. now rewrite axis_x, axis_y, axis_z.
Qed.
Lemma setYPR_unit y p r : Rqnormsq (setYPR y p r) = 1.
Proof.
  rewrite setYPR_product. unfold Rqnormsq, Rqmul. rewrite !(normsq_mul _ _ _ _ _ _ RT). unf.
  transitivity ((sin (y * / 2) * sin (y * / 2) + cos (y * / 2) * cos (y * / 2)) *
                (sin (p * / 2) * sin (p * / 2) + cos (p * / 2) * cos (p * / 2)) *
                (sin (r * / 2) * sin (r * / 2) + cos (r * / 2) * cos (r * / 2))); [ring|].
  rewrite !sc2. ring.
Qed.

Definition ex : pos3 R := P3 1 0 0.
Definition ey : pos3 R := P3 0 1 0.
Definition ez : pos3 R := P3 0 0 1.
Definition unit (q : quat R) : Prop := Rqnormsq q = 1.

(** The entries of the rotation matrix the accessors use *)
Lemma entries q : unit q ->
  px (Rprotate ex q) = 1 - 2 * (qy q * qy q + qz q * qz q) /\
  py (Rprotate ex q) = 2 * (qw q * qz q + qx q * qy q) /\
  pz (Rprotate ex q) = - (2 * (qw q * qy q - qz q * qx q)) /\
  pz (Rprotate ey q) = 2 * (qw q * qx q + qy q * qz q) /\
  pz (Rprotate ez q) = 1 - 2 * (qx q * qx q + qy q * qy q).
Proof.
  unfold unit. destruct q as [w x y z]. unfold ex, ey, ez. unf. intros E.
  repeat split; try ring; lra.
Qed.

Lemma ypr_entries y p r (q := setYPR y p r) :
  1 - 2 * (qy q * qy q + qz q * qz q) = cos p * cos y /\
  2 * (qw q * qz q + qx q * qy q) = cos p * sin y /\
  2 * (qw q * qy q - qz q * qx q) = sin p /\
  2 * (qw q * qx q + qy q * qz q) = cos p * sin r /\
  1 - 2 * (qx q * qx q + qy q * qy q) = cos p * cos r.
Proof.
  destruct (entries q (setYPR_unit y p r)) as (A & B & C & D & E).
  unfold q in *. rewrite setYPR_rotation in A, B, C, D, E.
  rewrite <- A, <- B, <- D, <- E.
  unfold rotz, roty, rotx, ex, ey, ez in *. cbn [px py pz] in *. repeat split; try ring.
  lra.
Qed.

Lemma ypr_roundtrip y p r : - PI < y <= PI -> - (PI / 2) < p < PI / 2 -> - PI < r <= PI ->
  yaw (setYPR y p r) = y /\ pitch (setYPR y p r) = p /\ roll (setYPR y p r) = r.
Proof.
  intros Hy Hp Hr. destruct (ypr_entries y p r) as (A & B & C & D & E).
  unfold yaw, pitch, roll. rewrite A, B, C, D, E.
  assert (P0 : 0 < cos p) by (apply cos_gt_0; lra).
  repeat split; try (now apply atan2_polar).
  rewrite (proj2 (Rleb_false _ _)); [apply asin_sin; lra|].
  apply Rabs_def1.
  - rewrite <- sin_PI2. apply sin_increasing_1; lra.
  - rewrite <- sin_PI2, <- sin_neg. apply sin_increasing_1; lra.
Qed.

(** A rotation is determined by the image of [ex] and the z components of the images of
    [ey] and [ez], unless [ex] is mapped to the z axis. *)
Lemma basis p q :
  Rprotate p q = Rpadd (Rpadd (Rpscale (px p) (Rprotate ex q)) (Rpscale (py p) (Rprotate ey q)))
                       (Rpscale (pz p) (Rprotate ez q)).
Proof. destruct p as [x y z], q as [w a b c]. unfold ex, ey, ez. apply P3_eq; unf; ring. Qed.

Lemma cofactors q : unit q ->
  px (Rprotate ey q) = py (Rprotate ez q) * pz (Rprotate ex q) - pz (Rprotate ez q) * py (Rprotate ex q) /\
  py (Rprotate ey q) = pz (Rprotate ez q) * px (Rprotate ex q) - px (Rprotate ez q) * pz (Rprotate ex q) /\
  px (Rprotate ez q) = py (Rprotate ex q) * pz (Rprotate ey q) - pz (Rprotate ex q) * py (Rprotate ey q) /\
  py (Rprotate ez q) = pz (Rprotate ex q) * px (Rprotate ey q) - px (Rprotate ex q) * pz (Rprotate ey q).
Proof.
  intros U. unfold unit, Rqnormsq in U.
  pose proof (rotate_cross _ _ _ _ _ _ RT ez ex q) as A. pose proof (rotate_cross _ _ _ _ _ _ RT ex ey q) as B.
  rewrite U in A, B. fold Rprotate in A, B.
  replace (cross Rmult Rminus ez ex) with ey in A by (unfold cross, ex, ey, ez; cbn [px py pz]; f_equal; ring).
  replace (cross Rmult Rminus ex ey) with ez in B by (unfold cross, ex, ey, ez; cbn [px py pz]; f_equal; ring).
  set (X := Rprotate ex q) in *. set (Y := Rprotate ey q) in *. set (Z := Rprotate ez q) in *.
  clearbody X Y Z. destruct X as [x1 x2 x3], Y as [y1 y2 y3], Z as [z1 z2 z3]. unfold cross, pscale in A, B. cbn [px py pz] in *.
  injection A as A1 A2 A3. injection B as B1 B2 B3. repeat split; lra.
Qed.

Lemma rotation_determined q q' : unit q -> unit q' ->
  Rprotate ex q = Rprotate ex q' -> pz (Rprotate ey q) = pz (Rprotate ey q') ->
  pz (Rprotate ez q) = pz (Rprotate ez q') -> pz (Rprotate ex q) * pz (Rprotate ex q) <> 1 ->
  forall p, Rprotate p q = Rprotate p q'.
Proof.
  intros U U' EX EY EZ N p.
  destruct (cofactors q U) as (A & B & C & D). destruct (cofactors q' U') as (A' & B' & C' & D').
  rewrite <- EX, <- EY, <- EZ in *.
  assert (Y : Rprotate ey q = Rprotate ey q' /\ Rprotate ez q = Rprotate ez q').
  { set (X := Rprotate ex q) in *.
    set (Y := Rprotate ey q) in *. set (Z := Rprotate ez q) in *.
    set (Y' := Rprotate ey q') in *. set (Z' := Rprotate ez q') in *.
    assert (N' : 1 - pz X * pz X <> 0) by lra.
    assert (E1 : px Y = px Y').
    { apply (Rmult_eq_reg_l (1 - pz X * pz X)); [|assumption].
      assert (T : forall y z, y = z * pz X - pz Z * py X -> z = pz X * y - px X * pz Y ->
                              (1 - pz X * pz X) * y = - px X * pz Y * pz X - pz Z * py X).
      { intros y z H1 H2. rewrite H2 in H1.
        transitivity (y - pz X * pz X * y); [ring|]. rewrite H1 at 1. ring. }
      rewrite (T _ _ A D). now rewrite (T _ _ A' D'). }
    assert (E2 : py Y = py Y').
    { apply (Rmult_eq_reg_l (1 - pz X * pz X)); [|assumption].
      assert (T : forall y z, y = pz Z * px X - z * pz X -> z = py X * pz Y - pz X * y ->
                              (1 - pz X * pz X) * y = pz Z * px X - py X * pz Y * pz X).
      { intros y z H1 H2. rewrite H2 in H1.
        transitivity (y - pz X * pz X * y); [ring|]. rewrite H1 at 1. ring. }
      rewrite (T _ _ B C). now rewrite (T _ _ B' C'). }
    split; apply P3_eq; congruence. }
  destruct Y as [Y Z]. rewrite (basis p q), (basis p q'). now rewrite EX, Y, Z.
Qed.

Lemma column_norm q : unit q ->
  px (Rprotate ex q) * px (Rprotate ex q) + py (Rprotate ex q) * py (Rprotate ex q) +
  pz (Rprotate ex q) * pz (Rprotate ex q) = 1.
Proof.
  intros U. pose proof (rotate_dot _ _ _ _ _ _ RT ex ex q) as H. unfold unit, Rqnormsq in U. rewrite U in H.
  unfold pdot in H at 1. fold Rprotate in H. rewrite H. unfold ex. unf. ring.
Qed.
Lemma row_norm q : unit q ->
  pz (Rprotate ex q) * pz (Rprotate ex q) + pz (Rprotate ey q) * pz (Rprotate ey q) +
  pz (Rprotate ez q) * pz (Rprotate ez q) = 1.
Proof.
  unfold unit. destruct q as [w x y z]. unfold ex, ey, ez. unf. intros E.
  transitivity ((w * w + x * x + y * y + z * z) * (w * w + x * x + y * y + z * z)); [ring|]. rewrite E. ring.
Qed.

Lemma ypr_represents q : unit q -> Rabs (2 * (qw q * qy q - qz q * qx q)) < 1 ->
  forall p, Rprotate p (setYPR (yaw q) (pitch q) (roll q)) = Rprotate p q.
Proof.
  intros U G p. symmetry. set (s := 2 * (qw q * qy q - qz q * qx q)) in *.
  destruct (entries q U) as (A & B & C & D & E). fold s in C.
  apply Rabs_def2 in G. pose proof (column_norm q U) as CN. pose proof (row_norm q U) as RN.
  assert (Pit : pitch q = asin s).
  { unfold pitch. fold s. rewrite (proj2 (Rleb_false _ _)); [reflexivity|]. apply Rabs_def1; lra. }
  assert (Sp : sin (pitch q) = s) by (rewrite Pit; apply sin_asin; lra).
  assert (Cp : cos (pitch q) = sqrt (1 - s * s)) by (rewrite Pit; now rewrite cos_asin by lra).
  assert (Pos : 0 < 1 - s * s) by nra.
  rewrite A, B, C in CN. rewrite C, D, E in RN.
  destruct (atan2_spec (1 - 2 * (qy q * qy q + qz q * qz q)) (2 * (qw q * qz q + qx q * qy q)) ltac:(lra))
    as (_ & Y1 & Y2).
  destruct (atan2_spec (1 - 2 * (qx q * qx q + qy q * qy q)) (2 * (qw q * qx q + qy q * qz q)) ltac:(lra))
    as (_ & R1 & R2).
  fold (yaw q) in Y1, Y2. fold (roll q) in R1, R2.
  match type of Y1 with sqrt ?e * _ = _ => replace e with (1 - s * s) in Y1, Y2 by lra end.
  match type of R1 with sqrt ?e * _ = _ => replace e with (1 - s * s) in R1, R2 by lra end.
  rewrite <- Cp in *.
  destruct (entries _ (setYPR_unit (yaw q) (pitch q) (roll q))) as (A' & B' & C' & D' & E').
  destruct (ypr_entries (yaw q) (pitch q) (roll q)) as (A'' & B'' & C'' & D'' & E'').
  apply rotation_determined; [assumption|apply setYPR_unit| | | |].
  - apply P3_eq; lra.
  - lra.
  - lra.
  - rewrite C. lra.
Qed.

(** *** Rotation vector and angle *)
Lemma sumsq_nonneg a b c : 0 <= a * a + b * b + c * c.
Proof. assert (H := Rle_0_sqr). unfold Rsqr in H. pose proof (H a). pose proof (H b). pose proof (H c). lra. Qed.
Lemma pnorm_sq p : pnorm p * pnorm p = Rpdot p p.
Proof. unfold pnorm. rewrite sqrt_sqrt; [reflexivity|]. apply sumsq_nonneg. Qed.
Lemma pnorm_nonneg p : 0 <= pnorm p.
Proof. apply sqrt_pos. Qed.
Lemma qvnorm_sq q : qvnorm q * qvnorm q = qx q * qx q + qy q * qy q + qz q * qz q.
Proof. unfold qvnorm. apply sqrt_sqrt, sumsq_nonneg. Qed.
Lemma qvnorm_nonneg q : 0 <= qvnorm q.
Proof. apply sqrt_pos. Qed.
Lemma pscale_norm c p : 0 <= c -> pnorm (Rpscale c p) = c * pnorm p.
Proof.
  intros Hc. unfold pnorm. apply sqrt_lem_1; [apply sumsq_nonneg| |].
  - apply Rmult_le_pos; [assumption|apply sqrt_pos].
  - transitivity (c * c * (sqrt (pnormsq Rplus Rmult p) * sqrt (pnormsq Rplus Rmult p))); [ring|].
    rewrite sqrt_sqrt by apply sumsq_nonneg. destruct p as [x y z]. unf. ring.
Qed.

Section Eps.
  Variable epsilon : R.
  Hypothesis eps_pos : 0 < epsilon <= 1.

  Lemma pnormalise_ok p : epsilon <= pnorm p ->
    pnormalise epsilon p false = Ok (Rpscale (1 / pnorm p) p) /\ Rpdot (Rpscale (1 / pnorm p) p) (Rpscale (1 / pnorm p) p) = 1.
  Proof using eps_pos.
    intros H. unfold pnormalise. cbn [negb andb]. rewrite (proj2 (Rltb_false _ _) H).
    rewrite rdiv_ok by lra. cbn [bind]. split; [reflexivity|].
    pose proof (pnorm_sq p) as E.
    transitivity (1 / pnorm p * (1 / pnorm p) * Rpdot p p); [destruct p as [x y z]; unf; ring|].
    rewrite <- E. field. lra.
  Qed.
  Lemma pnormalise_throw p : pnorm p < epsilon -> pnormalise epsilon p false = Throw RuntimeError.
  Proof using. intros H. unfold pnormalise. cbn [negb andb]. now rewrite (proj2 (Rltb_spec _ _) H). Qed.
  Lemma pnormalise_unit p : Rpdot p p = 1 -> pnormalise epsilon p false = Ok p.
  Proof using eps_pos.
    intros E. assert (N : pnorm p = 1).
    { unfold pnorm. change (pnormsq Rplus Rmult p) with (Rpdot p p). rewrite E. apply sqrt_1. }
    destruct (pnormalise_ok p) as [-> _]; [lra|]. f_equal. rewrite N. destruct p as [x y z]. apply P3_eq; unf; field.
  Qed.

  Lemma rv_ok v a : epsilon <= pnorm v -> exists n, pnormalise epsilon v false = Ok n /\ Rpdot n n = 1 /\
    v = Rpscale (pnorm v) n /\
    setRotationVector epsilon v a =
    Ok (Q4 (cos (/ 2 * a)) (sin (/ 2 * a) * px n) (sin (/ 2 * a) * py n) (sin (/ 2 * a) * pz n)).
  Proof using eps_pos.
    intros H. destruct (pnormalise_ok v H) as [E U]. exists (Rpscale (1 / pnorm v) v).
    split; [assumption|]. split; [assumption|]. split.
    - destruct v as [x y z]. apply P3_eq; cbv [Rpscale pscale px py pz]; field; unfold pnorm in *; lra.
    - unfold setRotationVector. rewrite E. reflexivity.
  Qed.

  Lemma rv_unit n a : Rpdot n n = 1 ->
    unit (Q4 (cos (/ 2 * a)) (sin (/ 2 * a) * px n) (sin (/ 2 * a) * py n) (sin (/ 2 * a) * pz n)).
  Proof using.
    intros E. unfold unit. destruct n as [x y z]. revert E. unf. intros E. pose proof (sc2 (/ 2 * a)) as S2.
    transitivity (cos (/ 2 * a) * cos (/ 2 * a) + sin (/ 2 * a) * sin (/ 2 * a) * (x * x + y * y + z * z)); [ring|].
    rewrite E. lra.
  Qed.
  (** Rodrigues' rotation formula *)
  Lemma rv_rotation n a p : Rpdot n n = 1 ->
    Rprotate p (Q4 (cos (/ 2 * a)) (sin (/ 2 * a) * px n) (sin (/ 2 * a) * py n) (sin (/ 2 * a) * pz n)) =
    Rpadd (Rpadd (Rpscale (cos a) p) (Rpscale (sin a) (cross Rmult Rminus n p)))
          (Rpscale ((1 - cos a) * Rpdot n p) n).
  Proof using.
    intros E. unfold Rprotate. rewrite (rotate_formula _ _ _ _ _ _ RT).
    destruct (half' a) as [C S]. pose proof (sc2 (/ 2 * a)) as S2.
    set (c := cos (/ 2 * a)) in *. set (s := sin (/ 2 * a)) in *.
    assert (C' : 1 - cos a = 2 * (s * s)) by lra.
    assert (V : pdot Rplus Rmult (vpart (Q4 c (s * px n) (s * py n) (s * pz n))) (vpart (Q4 c (s * px n) (s * py n) (s * pz n)))
                = s * s).
    { transitivity (s * s * Rpdot n n); [|rewrite E; ring]. destruct n as [x y z]. cbv [vpart]. unf. ring. }
    rewrite V, C', C, S. destruct n as [x y z], p as [p1 p2 p3]. cbv [vpart cross]. apply P3_eq; unf; ring.
  Qed.

  Lemma rv_accessors n a : Rpdot n n = 1 -> 0 <= a <= 2 * PI ->
    let q := Q4 (cos (/ 2 * a)) (sin (/ 2 * a) * px n) (sin (/ 2 * a) * py n) (sin (/ 2 * a) * pz n) in
    qvnorm q = sin (/ 2 * a) /\ rotationAngle q = a /\
    (epsilon < sin (/ 2 * a) -> rotationVector epsilon q = Ok n).
  Proof using eps_pos.
    intros E Ha q. assert (S0 : 0 <= sin (/ 2 * a)) by (apply sin_ge_0; lra).
    assert (N : qvnorm q = sin (/ 2 * a)).
    { unfold qvnorm, q. cbn [qx qy qz]. apply sqrt_lem_1; [apply sumsq_nonneg|assumption|].
      transitivity (sin (/ 2 * a) * sin (/ 2 * a) * Rpdot n n); [rewrite E; ring|]. destruct n as [x y z]. unf. ring. }
    split; [assumption|]. split.
    - unfold rotationAngle. rewrite N. unfold q. cbn [qw].
      assert (A := atan2_polar 1 (/ 2 * a) ltac:(lra) ltac:(pose proof PI_RGT_0; lra)).
      rewrite !Rmult_1_l in A. rewrite A. field.
    - intros G. unfold rotationVector. rewrite N, (proj2 (Rleb_false _ _) G). rewrite rdiv_ok by lra. cbn [bind].
      unfold q. cbn [qx qy qz]. f_equal. destruct n as [x y z]. apply P3_eq; cbn [px py pz]; field; lra.
  Qed.

  Lemma rv_roundtrip q : unit q -> qvnorm q = 0 \/ epsilon < qvnorm q ->
    exists v, rotationVector epsilon q = Ok v /\ setRotationVector epsilon v (rotationAngle q) = Ok q.
  Proof using eps_pos.
    intros U H. pose proof (qvnorm_sq q) as V. pose proof (qvnorm_nonneg q) as NN.
    assert (U' : qw q * qw q + qvnorm q * qvnorm q = 1).
    { rewrite V. unfold unit in U. destruct q as [w x y z]. revert U. unf. intros U. cbn [qw qx qy qz]. lra. }
    destruct (atan2_spec (qw q) (qvnorm q) ltac:(lra)) as (_ & C & S). rewrite U', sqrt_1, !Rmult_1_l in C, S.
    unfold setRotationVector. unfold rotationAngle.
    replace (/ 2 * (2 * atan2 (qvnorm q) (qw q))) with (atan2 (qvnorm q) (qw q)) by field.
    rewrite C, S. unfold rotationVector. cbv zeta. destruct H as [Z|G].
    - rewrite (proj2 (Rleb_spec _ _)) by lra. eexists. split; [reflexivity|].
      rewrite pnormalise_unit by (unf; ring). cbn [bind px py pz]. f_equal.
      rewrite Z in V. assert (Hs := Rle_0_sqr). unfold Rsqr in Hs.
      pose proof (Hs (qx q)). pose proof (Hs (qy q)). pose proof (Hs (qz q)).
      apply Q4_eq; cbn [qw qx qy qz]; [reflexivity|..]; rewrite Z, ?Rmult_0_l; symmetry; apply Rsqr_0_uniq; unfold Rsqr; lra.
    - rewrite (proj2 (Rleb_false _ _) G). rewrite rdiv_ok by lra. cbn [bind]. eexists. split; [reflexivity|].
      rewrite pnormalise_unit.
      + cbn [bind px py pz]. f_equal. apply Q4_eq; cbn [qw qx qy qz]; [reflexivity|..]; field; lra.
      + cbv [Rpdot pdot px py pz].
        transitivity ((qx q * qx q + qy q * qy q + qz q * qz q) / (qvnorm q * qvnorm q)); [field; lra|].
        rewrite <- V. field. lra.
  Qed.

  (** *** JSON *)
  Lemma degree_radian x : degree2radian (radian2degree x) = x.
  Proof using. unfold degree2radian, radian2degree. pose proof PI_RGT_0. field. lra. Qed.

  (** *** Interpolation *)
  Lemma clip_dot a b : Rpdot a a = 1 -> Rpdot b b = 1 -> -1 <= Rpdot a b <= 1.
  Proof using.
    intros A B. destruct a as [a1 a2 a3], b as [b1 b2 b3]. revert A B. unf. intros A B.
    pose proof (sumsq_nonneg (a1 - b1) (a2 - b2) (a3 - b3)).
    pose proof (sumsq_nonneg (a1 + b1) (a2 + b2) (a3 + b3)). lra.
  Qed.
  Lemma sum4_nonneg a b c d : 0 <= a * a + b * b + c * c + d * d.
  Proof using. pose proof (sumsq_nonneg a b c). pose proof (Rle_0_sqr d). unfold Rsqr in *. lra. Qed.
  Lemma clip_qdot a b : Rqdot a a = 1 -> Rqdot b b = 1 -> -1 <= Rqdot a b <= 1.
  Proof using.
    intros A B. destruct a as [a0 a1 a2 a3], b as [b0 b1 b2 b3]. revert A B. unf. intros A B.
    pose proof (sum4_nonneg (a0 - b0) (a1 - b1) (a2 - b2) (a3 - b3)).
    pose proof (sum4_nonneg (a0 + b0) (a1 + b1) (a2 + b2) (a3 + b3)). lra.
  Qed.

  Lemma slerp_identities a b : sin (a + b) <> 0 ->
    (sin a * sin a + sin b * sin b + 2 * (sin a * sin b) * cos (a + b) = sin (a + b) * sin (a + b)) /\
    sin a + sin b * cos (a + b) = sin (a + b) * cos b.
  Proof using.
    intros _. rewrite sin_plus, cos_plus. pose proof (sc2 a) as A. pose proof (sc2 b) as B.
    set (s := sin a) in *. set (c := cos a) in *. set (u := sin b) in *. set (v := cos b) in *.
    split.
    - transitivity (s * s + u * u - 2 * (s * s) * (u * u) + 2 * s * u * c * v); [ring|].
      replace (s * s + u * u - 2 * (s * s) * (u * u)) with (s * s * (1 - u * u) + (1 - s * s) * (u * u)) by ring.
      replace (1 - u * u) with (v * v) by lra. replace (1 - s * s) with (c * c) by lra. ring.
    - transitivity (s * (1 - u * u) + u * c * v); [ring|]. replace (1 - u * u) with (v * v) by lra. ring.
  Qed.
End Eps.
