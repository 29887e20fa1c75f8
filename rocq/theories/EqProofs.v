(** Second-order recursive filters over the reals: stability and frequency response. *)
From Verif Require Import Base Memory BiquadModel BiquadProofs EqModel.
From Coq Require Import Reals Lra Psatz.
Local Open Scope R_scope.

(** *** Specification *)
(** complex numbers as pairs *)
Definition cplx := (R * R)%type.
Definition cadd (x y : cplx) : cplx := (fst x + fst y, snd x + snd y).
Definition cmul (x y : cplx) : cplx :=
  (fst x * fst y - snd x * snd y, fst x * snd y + snd x * fst y).
Definition creal (r : R) : cplx := (r, 0).
Definition cabs2 (x : cplx) : R := fst x * fst x + snd x * snd x.

(** a filter [y n = b0 x n + b1 x(n-1) + b2 x(n-2) - a1 y(n-1) - a2 y(n-2)] has the poles
    z with z^2 + a1 z + a2 = 0 *)
Definition pole (c : coefficient R) (z : cplx) : Prop :=
  cadd (cmul z z) (cadd (cmul (creal (a1 c)) z) (creal (a2 c))) = creal 0.

(** value of the polynomial [p0 + p1 d + p2 d^2] where [d] is the unit delay at the angular
    frequency [w] (radians per sample) *)
Definition at_frequency (p0 p1 p2 w : R) : cplx :=
  let d := (cos w, - sin w) in
  cadd (creal p0) (cadd (cmul (creal p1) d) (cmul (creal p2) (cmul d d))).
Definition numerator (c : coefficient R) (w : R) := at_frequency (b0 c) (b1 c) (b2 c) w.
Definition denominator (c : coefficient R) (w : R) := at_frequency 1 (a1 c) (a2 c) w.
(** the frequency response at [w] is [H] *)
Definition has_response (c : coefficient R) (w : R) (H : cplx) : Prop :=
  denominator c w <> creal 0 /\ numerator c w = cmul H (denominator c w).

(** bounded input gives bounded output *)
Definition bibo (c : coefficient R) : Prop :=
  exists G, 0 <= G /\ forall xs ys M,
    difference_equation 0 Rplus Rmult Rminus c xs ys ->
    (forall x, In x xs -> Rabs x <= M) -> forall y, In y ys -> Rabs y <= G * M.

(** *** Proofs *)
Lemma Rabs_between a b : Rabs a <= b -> - b <= a <= b.
Proof.
  intros H. assert (A := Rle_abs a). assert (B := Rle_abs (- a)). rewrite Rabs_Ropp in B. lra.
Qed.

Definition schur (p q : R) : Prop := -1 < q < 1 /\ Rabs p < 1 + q.

Lemma schur_abs p q : schur p q -> - (1 + q) < p < 1 + q.
Proof. intros [Hq H]. apply Rabs_def2 in H. lra. Qed.

Lemma schur_poles c z : schur (a1 c) (a2 c) -> pole c z -> cabs2 z < 1.
Proof.
  intros S P. assert (B := schur_abs _ _ S). destruct S as [Hq _].
  unfold pole, cadd, cmul, creal, cabs2 in *. destruct z as [x y]; cbn [fst snd] in *.
  injection P as E1 E2. set (p := a1 c) in *. set (q := a2 c) in *.
  assert (Y : y = 0 \/ p = -2 * x).
  { destruct (Req_dec y 0) as [|N]; [now left|right].
    apply (Rmult_eq_reg_r y); [|exact N]. nra. }
  destruct Y as [->|Ep].
  - (* real pole: z^2 + p z + q = 0 with |p| < 1 + q *)
    assert (E : x * x + p * x + q = 0) by lra.
    assert (x < 1).
    { destruct (Rlt_dec x 1); [assumption|exfalso]. nra. }
    assert (-1 < x).
    { destruct (Rlt_dec (-1) x); [assumption|exfalso]. nra. }
    nra.
  - assert (x * x + y * y = q) by (rewrite Ep in E1; lra). lra.
Qed.

(** the Lyapunov form *)
Section Lyapunov.
  Variables p q : R.
  Hypothesis S : schur p q.
  Let m := 1 + q - Rabs p.
  Let dl := (1 - q) * (m * m) / 36.
  Let Q (u v : R) := (1 + q) * (u * u + v * v) + 2 * p * (u * v).

  Lemma m_pos : 0 < m <= 2.
  Proof. destruct S as [H1 H2]. unfold m. assert (P := Rabs_pos p). lra. Qed.
  Lemma p_bound : - (1 + q - m) <= p <= 1 + q - m.
  Proof.
    unfold m. replace (1 + q - (1 + q - Rabs p)) with (Rabs p) by ring.
    assert (A := Rle_abs p). assert (B := Rle_abs (- p)). rewrite Rabs_Ropp in B. lra.
  Qed.
  Lemma Q_lower u v : m * (u * u + v * v) <= Q u v.
  Proof.
    assert (P := p_bound). assert (M := m_pos). unfold Q.
    assert (0 <= (1 + q - m + p) * ((u + v) * (u + v)))
      by (apply Rmult_le_pos; [lra|apply Rle_0_sqr]).
    assert (0 <= (1 + q - m - p) * ((u - v) * (u - v)))
      by (apply Rmult_le_pos; [lra|apply Rle_0_sqr]).
    nra.
  Qed.
  Lemma Q_upper u v : Q u v <= 4 * (u * u + v * v).
  Proof.
    assert (P := p_bound). assert (M := m_pos). destruct S as [H1 _]. unfold Q.
    assert (0 <= (2 - p) * ((u + v) * (u + v)))
      by (apply Rmult_le_pos; [lra|apply Rle_0_sqr]).
    assert (0 <= (2 + p) * ((u - v) * (u - v)))
      by (apply Rmult_le_pos; [lra|apply Rle_0_sqr]).
    assert (0 <= (1 - q) * (u * u + v * v)) by (apply Rmult_le_pos; nra).
    nra.
  Qed.
  Lemma Q_nonneg u v : 0 <= Q u v.
  Proof.
    assert (L := Q_lower u v). assert (M := m_pos). assert (A := Rle_0_sqr u).
    assert (B := Rle_0_sqr v). unfold Rsqr in *.
    assert (0 <= m * (u * u + v * v)) by (apply Rmult_le_pos; lra). lra.
  Qed.
  Lemma dl_pos : 0 < dl < 1.
  Proof.
    assert (M := m_pos). destruct S as [H1 _]. unfold dl.
    assert (0 < m * m <= 4) by nra. split.
    - apply Rmult_lt_0_compat; [|lra]. apply Rmult_lt_0_compat; lra.
    - nra.
  Qed.
  (** two steps without input *)
  Lemma Q_contract u v : let w := - p * u - q * v in let x := - p * w - q * u in
    Q x w <= (1 - dl) * Q u v.
  Proof.
    intros w x. assert (M := m_pos). assert (P := p_bound). destruct S as [H1 _].
    assert (E1 : Q w u = Q u v - (1 - q) * ((w - v) * (w - v))) by (unfold Q, w; ring).
    assert (E2 : Q x w = Q w u - (1 - q) * ((x - u) * (x - u))) by (unfold Q, x; ring).
    set (d1 := w - v) in *. set (d2 := x - u) in *.
    assert (F1 : p * u + (1 + q) * v = - d1) by (unfold d1, w; ring).
    assert (F2 : (1 + q) * u + p * v = - d2 - p * d1) by (unfold d2, x, d1, w; ring).
    assert (G : m * m * (u * u + v * v)
                <= (p * u + (1 + q) * v) * (p * u + (1 + q) * v)
                   + ((1 + q) * u + p * v) * ((1 + q) * u + p * v)).
    { (* the eigenvalues of the symmetric matrix are 1 + q + p and 1 + q - p *)
      assert (I : (p * u + (1 + q) * v) * (p * u + (1 + q) * v)
                   + ((1 + q) * u + p * v) * ((1 + q) * u + p * v)
                  = ((1 + q + p) * (1 + q + p)) * ((u + v) * (u + v)) / 2
                    + ((1 + q - p) * (1 + q - p)) * ((u - v) * (u - v)) / 2) by field.
      rewrite I.
      assert (A1 : m * m <= (1 + q + p) * (1 + q + p)) by nra.
      assert (A2 : m * m <= (1 + q - p) * (1 + q - p)) by nra.
      assert (B1 := Rmult_le_compat_r ((u + v) * (u + v)) _ _ (Rle_0_sqr (u + v)) A1).
      assert (B2 := Rmult_le_compat_r ((u - v) * (u - v)) _ _ (Rle_0_sqr (u - v)) A2).
      nra. }
    rewrite F1, F2 in G.
    assert (K : (- d1) * (- d1) + (- d2 - p * d1) * (- d2 - p * d1) <= 9 * (d1 * d1 + d2 * d2)).
    { assert (PP : p * p <= 4) by nra.
      assert (T : (- d2 - p * d1) * (- d2 - p * d1) <= 2 * (d2 * d2) + 2 * (p * p) * (d1 * d1)).
      { assert (Z := Rle_0_sqr (d2 - p * d1)). unfold Rsqr in Z. nra. }
      assert (U := Rmult_le_compat_r (d1 * d1) _ _ (Rle_0_sqr d1) PP). nra. }
    assert (L : m * m * (u * u + v * v) <= 9 * (d1 * d1 + d2 * d2)) by lra.
    assert (X : (1 - q) * (m * m * (u * u + v * v)) <= (1 - q) * (9 * (d1 * d1 + d2 * d2)))
      by (apply Rmult_le_compat_l; lra).
    assert (QU := Q_upper u v).
    assert (D : dl * Q u v <= dl * (4 * (u * u + v * v)))
      by (apply Rmult_le_compat_l; [apply Rlt_le, dl_pos|exact QU]).
    assert (Y : dl * (4 * (u * u + v * v)) = (1 - q) * (m * m * (u * u + v * v)) / 9)
      by (unfold dl; field).
    rewrite E2, E1. nra.
  Qed.
  Lemma Q_young x w f g e : 0 < e ->
    Q (x + f) (w + g) <= (1 + e) * Q x w + (1 + / e) * Q f g.
  Proof.
    intros He.
    assert (I : (1 + e) * Q x w + (1 + / e) * Q f g - Q (x + f) (w + g)
                = / e * Q (e * x - f) (e * w - g)) by (unfold Q; field; lra).
    assert (0 <= / e * Q (e * x - f) (e * w - g)).
    { apply Rmult_le_pos; [apply Rlt_le, Rinv_0_lt_compat, He|apply Q_nonneg]. }
    lra.
  Qed.

  (** a forced recursion started at rest stays bounded *)
  Definition gain2 : R := 40 * (1 + / dl) / (dl * dl).
  Lemma gain2_ge : 40 <= gain2.
  Proof.
    assert (D := dl_pos). unfold gain2.
    assert (1 < / dl) by (rewrite <- Rinv_1 at 1; apply Rinv_lt_contravar; lra).
    assert (1 <= / (dl * dl)).
    { rewrite <- Rinv_1 at 1. apply Rinv_le_contravar; nra. }
    unfold Rdiv. nra.
  Qed.
  Lemma forced_bounded (s e : nat -> R) (N : nat) E :
    0 <= E -> s 0%nat = 0 -> s 1%nat = 0 ->
    (forall k, (k < N)%nat -> s (2 + k)%nat = e k - p * s (1 + k)%nat - q * s k) ->
    (forall k, (k < N)%nat -> Rabs (e k) <= E) ->
    forall k, (k <= N)%nat -> Q (s (1 + k)%nat) (s k) <= gain2 * (E * E).
  Proof.
    intros HE S0 S1 R B.
    assert (D := dl_pos). assert (GG := gain2_ge). assert (PB := p_bound). assert (MM := m_pos).
    assert (E2 : 0 <= E * E) by nra.
    assert (sq : forall a b, Rabs a <= b -> a * a <= b * b).
    { intros a b H. assert (0 <= b) by (assert (Z := Rabs_pos a); lra).
      apply Rabs_between in H. nra. }
    assert (both : forall k, ((k <= N)%nat -> Q (s (1 + k)%nat) (s k) <= gain2 * (E * E))
                          /\ ((Datatypes.S k <= N)%nat -> Q (s (2 + k)%nat) (s (1 + k)%nat) <= gain2 * (E * E))).
    { induction k as [|k [IH1 IH2]].
      - split; intros HN; cbn [plus].
        + rewrite S0, S1. unfold Q. replace (_ + _) with 0 by ring. nra.
        + assert (H := R 0%nat ltac:(lia)). cbn [plus] in H. rewrite S0, S1 in H.
          assert (H' : s 2%nat = e 0%nat) by lra. rewrite S1, H'.
          assert (U := Q_upper (e 0%nat) 0). assert (V := sq _ _ (B 0%nat ltac:(lia))). nra.
      - split; [intros HN; apply IH2; lia|]. intros HN. cbn [plus] in *.
        assert (R1 := R k ltac:(lia)). assert (R2 := R (Datatypes.S k) ltac:(lia)). cbn [plus] in R1, R2.
        assert (B1 := B k ltac:(lia)). assert (B2 := B (Datatypes.S k) ltac:(lia)).
        set (u := s (Datatypes.S k)) in *. set (v := s k) in *.
        set (w := - p * u - q * v). set (x := - p * w - q * u).
        assert (Ew : s (Datatypes.S (Datatypes.S k)) = w + e k) by (rewrite R1; unfold w; ring).
        assert (Ex : s (Datatypes.S (Datatypes.S (Datatypes.S k))) = x + (e (Datatypes.S k) - p * e k)).
        { rewrite R2, Ew. unfold x. ring. }
        rewrite Ex, Ew.
        eapply Rle_trans; [apply (Q_young x w _ _ dl); lra|].
        assert (C := Q_contract u v). cbv zeta in C. fold w in C. fold x in C.
        assert (IH := IH1 ltac:(lia)).
        assert (QF : Q (e (Datatypes.S k) - p * e k) (e k) <= 40 * (E * E)).
        { eapply Rle_trans; [apply Q_upper|].
          assert (P2 : - 2 <= p <= 2) by (destruct S; lra).
          assert (F : Rabs (e (Datatypes.S k) - p * e k) <= 3 * E).
          { apply Rabs_between in B1, B2. apply Rabs_le. split; nra. }
          assert (V1 := sq _ _ F). assert (V2 := sq _ _ B1). nra. }
        assert (ID : 0 < / dl) by (apply Rinv_0_lt_compat; lra).
        assert (X1 : (1 + dl) * Q x w <= (1 + dl) * ((1 - dl) * (gain2 * (E * E)))).
        { apply Rmult_le_compat_l; [lra|]. eapply Rle_trans; [exact C|].
          apply Rmult_le_compat_l; [lra|exact IH]. }
        assert (X2 : (1 + / dl) * Q (e (Datatypes.S k) - p * e k) (e k) <= (1 + / dl) * (40 * (E * E)))
          by (apply Rmult_le_compat_l; lra).
        assert (X3 : (1 + dl) * ((1 - dl) * (gain2 * (E * E))) + (1 + / dl) * (40 * (E * E))
                     = gain2 * (E * E)) by (unfold gain2; field; lra).
        lra. }
    intros k Hk. now apply (proj1 (both k)).
  Qed.
  Lemma forced_output (s e : nat -> R) (N : nat) E :
    0 <= E -> s 0%nat = 0 -> s 1%nat = 0 ->
    (forall k, (k < N)%nat -> s (2 + k)%nat = e k - p * s (1 + k)%nat - q * s k) ->
    (forall k, (k < N)%nat -> Rabs (e k) <= E) ->
    forall k, (k < N)%nat -> Rabs (s (2 + k)%nat) <= sqrt (gain2 / m) * E.
  Proof.
    intros HE S0 S1 R B k Hk.
    assert (H := forced_bounded s e N E HE S0 S1 R B (Datatypes.S k) ltac:(lia)).
    cbn [plus] in *. assert (MM := m_pos). assert (GG := gain2_ge).
    assert (L := Q_lower (s (Datatypes.S (Datatypes.S k))) (s (Datatypes.S k))).
    set (y := s (Datatypes.S (Datatypes.S k))) in *. set (v := s (Datatypes.S k)) in *.
    assert (V := Rle_0_sqr v). unfold Rsqr in V.
    assert (Y : y * y <= gain2 / m * (E * E)).
    { assert (m * (y * y) <= gain2 * (E * E)) by nra.
      apply (Rmult_le_reg_l m); [lra|]. replace (m * (gain2 / m * (E * E))) with (gain2 * (E * E)) by (field; lra).
      assumption. }
    replace E with (sqrt (E * E)) by (now apply sqrt_square).
    assert (0 < gain2 / m) by (apply Rdiv_lt_0_compat; lra).
    rewrite <- sqrt_mult by nra.
    rewrite <- sqrt_Rsqr_abs. apply sqrt_le_1_alt. exact Y.
  Qed.
End Lyapunov.

Lemma schur_bibo c : schur (a1 c) (a2 c) -> bibo c.
Proof.
  intros S.
  set (G := sqrt (gain2 (a1 c) (a2 c) / (1 + a2 c - Rabs (a1 c)))).
  set (b := Rabs (b0 c) + Rabs (b1 c) + Rabs (b2 c)).
  assert (Hb : 0 <= b).
  { unfold b. assert (H1 := Rabs_pos (b0 c)). assert (H2 := Rabs_pos (b1 c)).
    assert (H3 := Rabs_pos (b2 c)). lra. }
  exists (G * b). split; [apply Rmult_le_pos; [apply sqrt_pos|exact Hb]|].
  intros xs ys M [L D] HM y Hy.
  apply In_nth with (d := 0) in Hy. destruct Hy as (n & Hn & <-).
  assert (M0 : 0 <= M).
  { destruct xs as [|x xs]; [cbn in L; lia|]. assert (H := HM x (or_introl eq_refl)).
    assert (P := Rabs_pos x). lra. }
  assert (Px : forall k v, Rabs (v) <= M -> Rabs (if k : bool then v else 0) <= M).
  { intros [] v Hv; [exact Hv|now rewrite Rabs_R0]. }
  set (e := fun n => b0 c * nth n xs 0 + b1 c * past 0 n 1 (fun i => nth i xs 0)
                     + b2 c * past 0 n 2 (fun i => nth i xs 0)).
  set (s := fun k => match k with Datatypes.S (Datatypes.S k) => nth k ys 0 | _ => 0 end : R).
  assert (Z := forced_output (a1 c) (a2 c) S s e (length xs) (b * M)
                 ltac:(now apply Rmult_le_pos) eq_refl eq_refl).
  rewrite Rmult_assoc. fold G in Z.
  change (nth n ys 0) with (s (2 + n)%nat). apply Z; [| |lia].
  - intros k Hk. specialize (D k Hk). cbn zeta in D. cbn [plus s]. rewrite D. unfold e, past.
    destruct k as [|[|k]]; cbn [Nat.leb Nat.sub s]; rewrite ?Nat.sub_0_r; ring.
  - intros k Hk.
    assert (X : forall i, (i < length xs)%nat -> Rabs (nth i xs 0) <= M)
      by (intros i Hi; apply HM, nth_In, Hi).
    assert (P0 : Rabs (nth k xs 0) <= M) by (now apply X).
    assert (P1 : Rabs (past 0 k 1 (fun i => nth i xs 0)) <= M).
    { unfold past. destruct (1 <=? k)%nat; [apply X; lia|now rewrite Rabs_R0]. }
    assert (P2 : Rabs (past 0 k 2 (fun i => nth i xs 0)) <= M).
    { unfold past. destruct (2 <=? k)%nat; [apply X; lia|now rewrite Rabs_R0]. }
    unfold e, b. rewrite !Rmult_plus_distr_r.
    eapply Rle_trans; [apply Rabs_triang|]. apply Rplus_le_compat;
      [eapply Rle_trans; [apply Rabs_triang|]; apply Rplus_le_compat|];
      rewrite Rabs_mult; apply Rmult_le_compat_l; auto using Rabs_pos.
Qed.

(** a cascade of bounded sections is bounded *)
Lemma cascade_bibo cs : (forall c, In c cs -> bibo c) ->
  exists G, 0 <= G /\ forall xs ys M,
    cascade_equation 0 Rplus Rmult Rminus cs xs ys ->
    (forall x, In x xs -> Rabs x <= M) -> forall y, In y ys -> Rabs y <= G * M.
Proof.
  induction cs as [|c cs IH]; intros H.
  - exists 1. split; [lra|]. intros xs ys M E HM y Hy. inversion E; subst.
    rewrite Rmult_1_l. now apply HM.
  - destruct (H c (or_introl eq_refl)) as (G1 & P1 & B1).
    destruct IH as (G2 & P2 & B2); [intros; apply H; now right|].
    exists (G2 * G1). split; [now apply Rmult_le_pos|].
    intros xs ys M E HM y Hy. inversion E; subst.
    rewrite Rmult_assoc. eapply B2; [eassumption| |exact Hy]. intros x Hx. eapply B1; eauto.
Qed.

(** *** The designed filters *)
Record in_range (p : iir_param) (fs : R) : Prop :=
  InRange { ir_freq : 0 < p_frequency p < fs / 2; ir_quality : 0 < p_quality p }.

Definition omega (p : iir_param) (fs : R) : R := 2 * PI * p_frequency p / fs.

Lemma omega_range p fs : in_range p fs -> 0 < omega p fs < PI.
Proof.
  intros [[H1 H2] _]. unfold omega. assert (P := PI_RGT_0). split.
  - apply Rdiv_lt_0_compat; nra.
  - apply (Rmult_lt_reg_r fs); [lra|]. unfold Rdiv. rewrite Rmult_assoc, Rinv_l by lra. nra.
Qed.
Lemma trig_range w : 0 < w < PI -> 0 < sin w /\ -1 < cos w < 1.
Proof.
  intros [H1 H2]. assert (S := sin_gt_0 w H1 H2). split; [exact S|].
  assert (E := sin2_cos2 w). unfold Rsqr in E.
  split; nra.
Qed.
Lemma schur_of_scaled k p q : 0 < k -> - k < q < k -> - (k + q) < p < k + q -> schur (p / k) (q / k).
Proof.
  intros Hk Hq Hp. split; [split|].
  - apply (Rmult_lt_reg_r k); [exact Hk|]. unfold Rdiv. rewrite Rmult_assoc, Rinv_l by lra. lra.
  - apply (Rmult_lt_reg_r k); [exact Hk|]. unfold Rdiv. rewrite Rmult_assoc, Rinv_l by lra. lra.
  - apply Rabs_def1; apply (Rmult_lt_reg_r k); try exact Hk; unfold Rdiv;
      rewrite ?Rmult_plus_distr_r, ?Ropp_mult_distr_l_reverse, ?Rmult_plus_distr_r,
        ?Rmult_assoc, ?Rinv_l by lra; lra.
Qed.
Lemma gain_pos g : 0 < sqrt (dB2linear g).
Proof. apply sqrt_lt_R0. unfold dB2linear. apply exp_pos. Qed.

Lemma calculated_schur p fs : in_range p fs ->
  schur (a1 (calculateIirCoefficients p fs)) (a2 (calculateIirCoefficients p fs)).
Proof.
  intros I. assert (T := trig_range _ (omega_range p fs I)). destruct T as [Ts Tc].
  destruct I as [_ Iq]. unfold calculateIirCoefficients. fold (omega p fs).
  set (w := omega p fs) in *. set (c := cos w) in *.
  assert (Ha : 0 < sin w / (2 * p_quality p)) by (apply Rdiv_lt_0_compat; lra).
  set (al := sin w / (2 * p_quality p)) in *.
  assert (HA := gain_pos (p_gain p)). set (A := sqrt (dB2linear (p_gain p))) in *.
  assert (HS : 0 < sqrt A) by (now apply sqrt_lt_R0).
  assert (HP : 0 < sqrt A * al) by (now apply Rmult_lt_0_compat).
  assert (HD : 0 < al / A) by (now apply Rdiv_lt_0_compat).
  assert (HC1 : 0 < A * (1 - c)) by (apply Rmult_lt_0_compat; lra).
  assert (HC2 : 0 < A * (1 + c)) by (apply Rmult_lt_0_compat; lra).
  destruct (p_type p); cbn [a1 a2]; apply schur_of_scaled; try lra; try split; try nra.
Qed.
