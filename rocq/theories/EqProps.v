(** Property C47: the parametric equaliser. *)
From Coq Require Import Reals Lra Psatz Nsatz RealField.
From Coq Require Import List.
From Verif Require Import Base Memory BiquadModel BiquadProofs BiquadProps EqModel EqProofs.
Local Open Scope R_scope.

(** *** Specification *)
(** amplitude ratio of a level in dB *)
Definition amplitude (dB : R) : R := Rpower 10 (dB / 20).

(** documented gains *)
Definition dc_gain (p : iir_param) : R :=
  match p_type p with
  | lowpass | bandstop | allpass | peak | highshelf => 1
  | highpass | bandpass => 0
  | lowshelf => amplitude (p_gain p)
  end.
Definition nyquist_gain (p : iir_param) : R :=
  match p_type p with
  | highpass | bandstop | allpass | peak | lowshelf => 1
  | lowpass | bandpass => 0
  | highshelf => amplitude (p_gain p)
  end.
(** squared magnitude at the cut-off or centre frequency; the shelves have half their gain
    (in dB) there *)
Definition centre_power (p : iir_param) : R :=
  match p_type p with
  | lowpass | highpass => p_quality p * p_quality p
  | bandpass | allpass => 1
  | bandstop => 0
  | peak => amplitude (p_gain p) * amplitude (p_gain p)
  | lowshelf | highshelf => amplitude (p_gain p)
  end.
Definition with_gain (p : iir_param) (g : R) : iir_param :=
  MkParam (p_type p) (p_frequency p) (p_quality p) g.
Definition has_gain (t : eq_type) : bool :=
  match t with peak | lowshelf | highshelf => true | _ => false end.

(** *** Lemmas *)
Lemma linear_amplitude g : dB2linear g = amplitude g.
Proof. unfold dB2linear, amplitude. f_equal. field. Qed.
Lemma amplitude_pos g : 0 < amplitude g.
Proof. apply exp_pos. Qed.
Lemma amplitude_opp g : amplitude (- g) = / amplitude g.
Proof. unfold amplitude. replace (- g / 20) with (- (g / 20)) by field. apply Rpower_Ropp. Qed.
Lemma amplitude_0 : amplitude 0 = 1.
Proof. unfold amplitude. replace (0 / 20) with 0 by field. apply Rpower_O. lra. Qed.

Lemma cplx_eq (x y : cplx) : fst x = fst y -> snd x = snd y -> x = y.
Proof. destruct x, y; cbn; congruence. Qed.
Lemma cabs2_mul x y : cabs2 (cmul x y) = cabs2 x * cabs2 y.
Proof. unfold cabs2, cmul. cbn [fst snd]. ring. Qed.
Lemma cabs2_0 x : cabs2 x = 0 -> x = creal 0.
Proof.
  unfold cabs2, creal. destruct x as [a b]; cbn [fst snd]. intros H.
  assert (A := Rle_0_sqr a). assert (B := Rle_0_sqr b). unfold Rsqr in *.
  assert (a * a = 0) by lra. assert (b * b = 0) by lra.
  apply Rsqr_0_uniq in H0. apply Rsqr_0_uniq in H1. congruence.
Qed.
Lemma cmul_cancel x y z : z <> creal 0 -> cmul x z = cmul y z -> x = y.
Proof.
  intros N E. assert (cabs2 (fst x - fst y, snd x - snd y) = 0).
  { assert (Z : cabs2 (cmul (fst x - fst y, snd x - snd y) z) = 0).
    { unfold cmul in E. injection E as E1 E2. unfold cabs2, cmul. cbn [fst snd].
      replace ((fst x - fst y) * fst z - (snd x - snd y) * snd z) with 0 by lra.
      replace ((fst x - fst y) * snd z + (snd x - snd y) * fst z) with 0 by lra. ring. }
    rewrite cabs2_mul in Z. apply Rmult_integral in Z as [Z|Z]; [exact Z|].
    apply cabs2_0 in Z. contradiction. }
  apply cabs2_0 in H. unfold creal in H. injection H as H1 H2. apply cplx_eq; lra.
Qed.

Lemma denominator_nonzero c w : schur (a1 c) (a2 c) -> denominator c w <> creal 0.
Proof.
  intros S E. assert (U := sin2_cos2 w). unfold Rsqr in U.
  assert (P : pole c (cos w, sin w)).
  { unfold denominator, at_frequency, pole, cadd, cmul, creal in *. cbn [fst snd] in *.
    injection E as E1 E2. set (x := cos w) in *. set (y := sin w) in *.
    apply cplx_eq; cbn [fst snd]; nsatz. }
  apply (schur_poles c _ S) in P. unfold cabs2 in P. cbn [fst snd] in P. lra.
Qed.

Lemma response_unique c w H1 H2 : has_response c w H1 -> has_response c w H2 -> H1 = H2.
Proof. intros [N E1] [_ E2]. apply (cmul_cancel _ _ (denominator c w)); congruence. Qed.

Lemma at_frequency_scale k p0 p1 p2 w :
  at_frequency (p0 * k) (p1 * k) (p2 * k) w = cmul (creal k) (at_frequency p0 p1 p2 w).
Proof.
  unfold at_frequency, cadd, cmul, creal. cbn [fst snd]. apply cplx_eq; cbn [fst snd]; ring.
Qed.
Lemma cmul_creal_comm k x y : cmul x (cmul (creal k) y) = cmul (creal k) (cmul x y).
Proof. unfold cmul, creal. apply cplx_eq; cbn [fst snd]; ring. Qed.

(** coefficients before the division by a0 *)
Lemma scaled_response c w H a0 B0 B1 B2 A1 A2 :
  a0 <> 0 -> b0 c = B0 / a0 -> b1 c = B1 / a0 -> b2 c = B2 / a0 -> a1 c = A1 / a0 -> a2 c = A2 / a0 ->
  at_frequency B0 B1 B2 w = cmul H (at_frequency a0 A1 A2 w) ->
  numerator c w = cmul H (denominator c w).
Proof.
  intros N E0 E1 E2 E3 E4 E. unfold numerator, denominator. rewrite E0, E1, E2, E3, E4.
  replace 1 with (a0 * / a0) by (field; exact N). unfold Rdiv.
  rewrite !at_frequency_scale, E, cmul_creal_comm. reflexivity.
Qed.

(** What the proofs need to know about a design. *)
Record design (p : iir_param) (fs : R) (c s al A Asq : R) : Prop := {
  d_unit : s * s = 1 - c * c; d_s : 0 < s; d_c : -1 < c < 1; d_al : 0 < al;
  d_q : s = 2 * p_quality p * al; d_A : 0 < A; d_A2 : A * A = amplitude (p_gain p);
  d_Asq : 0 < Asq; d_Asq2 : Asq * Asq = A }.
Lemma designed p fs : in_range p fs ->
  design p fs (cos (omega p fs)) (sin (omega p fs)) (sin (omega p fs) / (2 * p_quality p))
    (sqrt (dB2linear (p_gain p))) (sqrt (sqrt (dB2linear (p_gain p)))).
Proof.
  intros I. assert (T := trig_range _ (omega_range p fs I)). destruct T as [Ts Tc].
  destruct I as [_ Iq]. assert (HA := gain_pos (p_gain p)).
  split; auto.
  - assert (E := sin2_cos2 (omega p fs)). unfold Rsqr in E. lra.
  - apply Rdiv_lt_0_compat; lra.
  - field. lra.
  - rewrite sqrt_sqrt, linear_amplitude; [reflexivity|]. apply Rlt_le, exp_pos.
  - now apply sqrt_lt_R0.
  - apply sqrt_sqrt. lra.
Qed.

Ltac prepare p fs I :=
  assert (D := designed p fs I); destruct I as [If Iq];
  unfold calculateIirCoefficients; fold (omega p fs);
  set (w := omega p fs) in *; 
  set (al := sin w / (2 * p_quality p)) in *;
  set (A := sqrt (dB2linear (p_gain p))) in *; set (Asq := sqrt A) in *;
  destruct D as [Du Ds Dc Dal Dq DA DA2 DAsq DAsq2].

(** unnormalised coefficients of the calculated filter *)
Definition raw (p : iir_param) (fs : R) : R * R * R * R * R * R :=
  let w0 := omega p fs in let al := sin w0 / (2 * p_quality p) in let c := cos w0 in
  let A := sqrt (dB2linear (p_gain p)) in let Asq := sqrt A in
  match p_type p with
  | lowpass => ((1 - c) / 2, 1 - c, (1 - c) / 2, 1 + al, -2 * c, 1 - al)
  | highpass => ((1 + c) / 2, - (1 + c), (1 + c) / 2, 1 + al, -2 * c, 1 - al)
  | bandpass => (al, 0, - al, 1 + al, -2 * c, 1 - al)
  | bandstop => (1, -2 * c, 1, 1 + al, -2 * c, 1 - al)
  | allpass => (1 - al, -2 * c, 1 + al, 1 + al, -2 * c, 1 - al)
  | peak => (1 + A * al, -2 * c, 1 - A * al, 1 + al / A, -2 * c, 1 - al / A)
  | lowshelf => (A * (A + 1 - (A - 1) * c + 2 * Asq * al), 2 * A * (A - 1 - (A + 1) * c),
                 A * (A + 1 - (A - 1) * c - 2 * Asq * al),
                 A + 1 + (A - 1) * c + 2 * Asq * al, -2 * (A - 1 + (A + 1) * c),
                 A + 1 + (A - 1) * c - 2 * Asq * al)
  | highshelf => (A * (A + 1 + (A - 1) * c + 2 * Asq * al), -2 * A * (A - 1 + (A + 1) * c),
                 A * (A + 1 + (A - 1) * c - 2 * Asq * al),
                 A + 1 - (A - 1) * c + 2 * Asq * al, 2 * (A - 1 - (A + 1) * c),
                 A + 1 - (A - 1) * c - 2 * Asq * al)
  end.
Lemma raw_correct p fs : in_range p fs ->
  let '(B0, B1, B2, A0, A1, A2) := raw p fs in
  0 < A0 /\ calculateIirCoefficients p fs
            = MkCoeff (B0 / A0) (B1 / A0) (B2 / A0) (A1 / A0) (A2 / A0).
Proof.
  intros I. unfold raw. prepare p fs I. fold al. fold A. fold Asq.
  assert (0 < al / A) by (now apply Rdiv_lt_0_compat).
  assert (0 < Asq * al) by (now apply Rmult_lt_0_compat).
  assert (0 < A * (1 - cos w)) by (apply Rmult_lt_0_compat; lra).
  assert (0 < A * (1 + cos w)) by (apply Rmult_lt_0_compat; lra).
  destruct (p_type p); (split; [nra|]); f_equal; field; try nra.
  all: split; nra.
Qed.
Lemma raw_response p fs w H : in_range p fs ->
  (let '(B0, B1, B2, A0, A1, A2) := raw p fs in
   at_frequency B0 B1 B2 w = cmul H (at_frequency A0 A1 A2 w)) ->
  has_response (calculateIirCoefficients p fs) w H.
Proof.
  intros I E. assert (R := raw_correct p fs I). split; [apply denominator_nonzero, calculated_schur, I|].
  destruct (raw p fs) as [[[[[B0 B1] B2] A0] A1] A2]. destruct R as [P R].
  eapply (scaled_response _ w H A0 B0 B1 B2 A1 A2); rewrite ?R; cbn [b0 b1 b2 a1 a2]; auto. lra.
Qed.

Lemma response_power p fs w H : has_response (calculateIirCoefficients p fs) w H -> in_range p fs ->
  forall k, (let '(B0, B1, B2, A0, A1, A2) := raw p fs in
             cabs2 (at_frequency B0 B1 B2 w) = k * cabs2 (at_frequency A0 A1 A2 w)) ->
  cabs2 H = k.
Proof.
  intros [N E] I k P. assert (R := raw_correct p fs I).
  destruct (raw p fs) as [[[[[B0 B1] B2] A0] A1] A2]. destruct R as [P0 R].
  assert (D0 : cabs2 (denominator (calculateIirCoefficients p fs) w) <> 0).
  { intros Z. apply N, cabs2_0, Z. }
  apply (Rmult_eq_reg_r (cabs2 (denominator (calculateIirCoefficients p fs) w))); [|exact D0].
  rewrite <- cabs2_mul, <- E. unfold numerator, denominator. rewrite R. cbn [b0 b1 b2 a1 a2].
  replace 1 with (A0 * / A0) by (field; lra). unfold Rdiv.
  rewrite !at_frequency_scale, !cabs2_mul, P. ring.
Qed.

(** *** Theorems *)
(** Every pole of every design lies inside the unit circle. *)
Theorem C47_stable p fs z :
  in_range p fs -> pole (calculateIirCoefficients p fs) z -> cabs2 z < 1.
Proof. intros I. apply schur_poles, calculated_schur, I. Qed.
Print Assumptions C47_stable.

(** The BiquadIirFilter component loaded with designed sections: there is one bound that
    holds for the outputs of all channels, for inputs of any length. *)
Theorem C47_bounded_output nch nsec (P : list (list iir_param)) fs :
  (0 < nch)%nat -> length P = nch -> (forall r, In r P -> length r = nsec) ->
  (forall r p, In r P -> In p r -> in_range p fs) ->
  let m := map (map (fun p => calculateIirCoefficients p fs)) P in
  exists G, 0 <= G /\ forall (xs : list (list (list R))) (M : R),
    (forall x, In x xs -> length x = nch) ->
    (forall x ch v, In x xs -> (ch < nch)%nat -> In v (nth ch x []) -> Rabs v <= M) ->
    exists f outs,
      run_ops Rplus Rmult Rminus (construct 0 nch nsec) (SetMatrix m :: map (Process None) xs) = Ok (f, outs)
      /\ length outs = length xs
      /\ forall ch v, (ch < nch)%nat -> In v (channel_output ch outs) -> Rabs v <= G * M.
Proof.
  intros Hn LP RP IP m.
  assert (B : exists G, 0 <= G /\ forall r xs ys M, In r m ->
    cascade_equation 0 Rplus Rmult Rminus r xs ys ->
    (forall x, In x xs -> Rabs x <= M) -> forall y, In y ys -> Rabs y <= G * M).
  { unfold m. clear m LP RP Hn. revert IP. induction P as [|r P IH]; intros IP.
    - exists 0. split; [lra|]. intros ? ? ? ? [].
    - destruct IH as (G1 & P1 & B1); [intros; eapply IP; eauto; now right|].
      destruct (cascade_bibo (map (fun p => calculateIirCoefficients p fs) r)) as (G2 & P2 & B2).
      { intros c Hc. apply in_map_iff in Hc as (p & <- & Hp). apply schur_bibo, calculated_schur.
        eapply IP; [now left|exact Hp]. }
      exists (G1 + G2). split; [lra|]. intros r' xs ys M Hr E HM y Hy.
      assert (M0 : 0 <= M).
      { destruct xs as [|x xs].
        - exfalso. clear -E Hy. remember [] as l eqn:L. induction E as [|c cs xs mid ys D E IH].
          + subst. contradiction.
          + apply IH; [|exact Hy]. destruct D as [LD _]. subst xs. destruct mid; [reflexivity|discriminate].
        - assert (Z := HM x (or_introl eq_refl)). assert (Z' := Rabs_pos x). lra. }
      rewrite Rmult_plus_distr_r. cbn [map] in Hr. destruct Hr as [<-|Hr].
      + specialize (B2 xs ys M E HM y Hy). assert (0 <= G1 * M) by (now apply Rmult_le_pos). lra.
      + specialize (B1 r' xs ys M Hr E HM y Hy). assert (0 <= G2 * M) by (now apply Rmult_le_pos). lra. }
  destruct B as (G & PG & B). exists G. split; [exact PG|]. intros xs M Hx HM.
  destruct (C22_cascade 0 1 Rplus Rmult Rminus Ropp RTheory nch nsec m xs) as (f & outs & E & L & D).
  - unfold m. now rewrite map_length.
  - intros r Hr. unfold m in Hr. apply in_map_iff in Hr as (r' & <- & Hr'). rewrite map_length. now apply RP.
  - exact Hn.
  - exact Hx.
  - exists f, outs. split; [exact E|]. split; [exact L|]. intros ch v Hch Hv.
    apply (B (nth ch m []) (concat (map (fun x => nth ch x []) xs)) (channel_output ch outs)); auto.
    + apply nth_In. unfold m. rewrite map_length. lia.
    + intros x Hin. apply in_concat in Hin as (l & Hl & Hin). apply in_map_iff in Hl as (b & <- & Hb).
      eapply HM; eauto.
Qed.
Print Assumptions C47_bounded_output.

(** Gains at zero frequency, at the Nyquist frequency and at the centre frequency. *)
Theorem C47_dc_gain p fs : in_range p fs ->
  has_response (calculateIirCoefficients p fs) 0 (creal (dc_gain p)).
Proof.
  intros I. apply raw_response; [exact I|]. unfold raw, dc_gain. prepare p fs I. fold al. fold A. fold Asq.
  unfold at_frequency, cadd, cmul, creal. rewrite cos_0, sin_0, <- DA2.
  destruct (p_type p); apply cplx_eq; cbn [fst snd]; field; lra.
Qed.
Print Assumptions C47_dc_gain.
Theorem C47_nyquist_gain p fs : in_range p fs ->
  has_response (calculateIirCoefficients p fs) PI (creal (nyquist_gain p)).
Proof.
  intros I. apply raw_response; [exact I|]. unfold raw, nyquist_gain. prepare p fs I. fold al. fold A. fold Asq.
  unfold at_frequency, cadd, cmul, creal. rewrite cos_PI, sin_PI, <- DA2.
  destruct (p_type p); apply cplx_eq; cbn [fst snd]; field; lra.
Qed.
Print Assumptions C47_nyquist_gain.
Theorem C47_centre_gain p fs H : in_range p fs ->
  has_response (calculateIirCoefficients p fs) (omega p fs) H -> cabs2 H = centre_power p.
Proof.
  intros I HR. apply (response_power p fs _ H HR I). clear HR. unfold raw, centre_power. prepare p fs I.
  fold al. fold A. fold Asq. rewrite <- DA2.
  unfold at_frequency, cadd, cmul, creal, cabs2. set (c := cos w) in *. set (s := sin w) in *.
  destruct (p_type p); cbn [fst snd].
  - assert (E : 2 * ((1 - c) / 2) = 1 - c) by field. set (h := (1 - c) / 2) in *. clearbody h al c s. clear - Du Dq E. subst s. nsatz.
  - assert (E : 2 * ((1 + c) / 2) = 1 + c) by field. set (h := (1 + c) / 2) in *. clearbody h al c s. clear - Du Dq E. subst s. nsatz.
  - clearbody al c s. clear - Du. nsatz.
  - clearbody al c s. clear - Du. nsatz.
  - clearbody Asq A al c s. clear - Du DAsq2. subst A. nsatz.
  - clearbody Asq A al c s. clear - Du DAsq2. subst A. nsatz.
  - assert (E : exists r, r * A = al) by (exists (al / A); field; lra). destruct E as [r Er].
    replace (al / A) with r by (rewrite <- Er; field; lra). clearbody al Asq. clearbody A c s. clear - Du Er. subst al. nsatz.
  - clearbody al c s. clear - Du. nsatz.
Qed.
Print Assumptions C47_centre_gain.

(** Every design has a response at every frequency. *)
Theorem C47_response_exists p fs w : in_range p fs ->
  exists H, has_response (calculateIirCoefficients p fs) w H.
Proof.
  intros I. assert (N := denominator_nonzero (calculateIirCoefficients p fs) w (calculated_schur p fs I)).
  set (n := numerator (calculateIirCoefficients p fs) w).
  set (d := denominator (calculateIirCoefficients p fs) w) in *.
  assert (N2 : cabs2 d <> 0) by (intros Z; apply N, cabs2_0, Z).
  exists ((fst n * fst d + snd n * snd d) / cabs2 d, (snd n * fst d - fst n * snd d) / cabs2 d).
  split; [exact N|]. fold n d. unfold cmul. unfold cabs2 in *. cbn [fst snd].
  apply cplx_eq; cbn [fst snd]; field; exact N2.
Qed.
Print Assumptions C47_response_exists.

(** The all-pass has unit magnitude at every frequency. *)
Theorem C47_allpass p fs w H : in_range p fs -> p_type p = allpass ->
  has_response (calculateIirCoefficients p fs) w H -> cabs2 H = 1.
Proof.
  intros I T HR. apply (response_power p fs w H HR I). unfold raw. rewrite T.
  assert (U := sin2_cos2 w). unfold Rsqr in U.
  set (al := sin (omega p fs) / (2 * p_quality p)). set (c0 := cos (omega p fs)).
  unfold at_frequency, cadd, cmul, creal, cabs2. cbn [fst snd].
  set (c := cos w) in *. set (s := sin w) in *. clearbody al c0 c s. clear - U. nsatz.
Qed.
Print Assumptions C47_allpass.

Lemma cmul_comm a b : cmul a b = cmul b a.
Proof. unfold cmul; apply cplx_eq; cbn [fst snd]; ring. Qed.
Lemma raw_of_response p fs w H : in_range p fs -> has_response (calculateIirCoefficients p fs) w H ->
  let '(B0, B1, B2, A0, A1, A2) := raw p fs in
  at_frequency A0 A1 A2 w <> creal 0 /\ at_frequency B0 B1 B2 w = cmul H (at_frequency A0 A1 A2 w).
Proof.
  intros I [N E]. assert (R := raw_correct _ fs I).
  destruct (raw p fs) as [[[[[B0 B1] B2] A0] A1] A2]. destruct R as [P R].
  rewrite R in N, E. unfold numerator, denominator in *. cbn [b0 b1 b2 a1 a2] in *.
  replace 1 with (A0 * / A0) in N, E by (field; lra). unfold Rdiv in *.
  rewrite !at_frequency_scale in *. rewrite cmul_creal_comm in E.
  assert (K : / A0 <> 0) by (apply Rinv_neq_0_compat; lra).
  split.
  - intros Z. apply N. rewrite Z. unfold cmul, creal. apply cplx_eq; cbn [fst snd]; ring.
  - apply (cmul_cancel _ _ (creal (/ A0))).
    + unfold creal. intros [=]. contradiction.
    + rewrite !(cmul_comm _ (creal _)). exact E.
Qed.

(** Designs with the same frequency and quality are complementary: low-pass plus high-pass
    is the band-stop, band-pass plus band-stop is the identity, and the all-pass is the
    identity minus twice the band-pass. *)
Definition with_type (t : eq_type) (p : iir_param) : iir_param :=
  MkParam t (p_frequency p) (p_quality p) (p_gain p).
Theorem C47_complementary p fs w HL HH HB HS HA :
  in_range p fs ->
  has_response (calculateIirCoefficients (with_type lowpass p) fs) w HL ->
  has_response (calculateIirCoefficients (with_type highpass p) fs) w HH ->
  has_response (calculateIirCoefficients (with_type bandpass p) fs) w HB ->
  has_response (calculateIirCoefficients (with_type bandstop p) fs) w HS ->
  has_response (calculateIirCoefficients (with_type allpass p) fs) w HA ->
  cadd HL HH = HS /\ cadd HB HS = creal 1 /\ cadd HA (cmul (creal 2) HB) = creal 1.
Proof.
  intros I RL RH RB RS RA.
  assert (I' : forall t, in_range (with_type t p) fs) by (intros t; destruct I; now split).
  assert (W : forall t, omega (with_type t p) fs = omega p fs) by reflexivity.
  assert (X := fun t H => raw_of_response (with_type t p) fs w H (I' t)).
  apply X in RL, RH, RB, RS, RA. unfold raw in *. cbn [with_type p_type p_quality] in *.
  rewrite !W in *. set (al := sin (omega p fs) / (2 * p_quality p)) in *. set (c := cos (omega p fs)) in *.
  destruct RL as [N EL], RH as [_ EH], RB as [_ EB], RS as [_ ES], RA as [_ EA].
  set (D := at_frequency (1 + al) (-2 * c) (1 - al) w) in *.
  assert (dist : forall a b, cmul (cadd a b) D = cadd (cmul a D) (cmul b D))
    by (intros; unfold cmul, cadd; apply cplx_eq; cbn [fst snd]; ring).
  assert (one : cmul (creal 1) D = D)
    by (unfold cmul, creal; apply cplx_eq; cbn [fst snd]; ring).
  assert (two : forall a, cmul (cmul (creal 2) a) D = cmul (creal 2) (cmul a D))
    by (intros; unfold cmul, creal; apply cplx_eq; cbn [fst snd]; ring).
  split; [|split]; apply (cmul_cancel _ _ D N); rewrite dist, ?one, ?two, <- ?EL, <- ?EH, <- ?EB, <- ?ES, <- ?EA;
    unfold D, at_frequency, cadd, cmul, creal; apply cplx_eq; cbn [fst snd]; field.
Qed.
Print Assumptions C47_complementary.

(** Boosting and cutting by the same amount cancel; a gain of 0 dB is the identity. *)
Theorem C47_boost_cut p fs g w H H' :
  has_gain (p_type p) = true -> in_range p fs ->
  has_response (calculateIirCoefficients (with_gain p g) fs) w H ->
  has_response (calculateIirCoefficients (with_gain p (- g)) fs) w H' ->
  cmul H H' = creal 1.
Proof.
  intros T I HR HR'.
  assert (I1 : in_range (with_gain p g) fs) by (destruct I; now split).
  assert (I2 : in_range (with_gain p (- g)) fs) by (destruct I; now split).
  apply (raw_of_response _ _ _ _ I1) in HR. apply (raw_of_response _ _ _ _ I2) in HR'.
  assert (HA := gain_pos g). assert (HA2 : sqrt (dB2linear (- g)) = / sqrt (dB2linear g)).
  { rewrite !linear_amplitude, amplitude_opp. symmetry. apply inv_sqrt_depr, amplitude_pos. }
  set (A := sqrt (dB2linear g)) in *.
  assert (HS := sqrt_lt_R0 A HA).
  assert (HS2 : sqrt (/ A) = / sqrt A) by (symmetry; apply inv_sqrt_depr; exact HA).
  assert (SA : sqrt A * sqrt A = A) by (apply sqrt_sqrt; lra).
  unfold raw in *. cbn [with_gain p_type p_gain p_quality] in *.
  change (omega (with_gain p g) fs) with (omega p fs) in *.
  change (omega (with_gain p (- g)) fs) with (omega p fs) in *.
  set (al := sin (omega p fs) / (2 * p_quality p)) in *. set (c := cos (omega p fs)) in *.
  fold A in HR. rewrite HA2, ?HS2 in HR'.
  assert (fin : forall k B D B' D', k <> 0 -> D <> creal 0 -> B = cmul H D -> B' = cmul H' D' ->
            B' = cmul (creal k) D -> D' = cmul (creal k) B -> cmul H H' = creal 1).
  { intros k B D B' D' Kk ND EB EB' F1 F2. apply (cmul_cancel _ _ D ND).
    apply (cmul_cancel _ _ (creal k)); [unfold creal; intros [=]; contradiction|].
    subst B D'. rewrite F1 in EB'. clear -EB'. destruct H as [h1 h2], H' as [h3 h4], D as [d1 d2].
    unfold cmul, creal in *. cbn [fst snd] in *. injection EB' as E1 E2.
    apply cplx_eq; cbn [fst snd]; lra. }
  destruct (p_type p); try discriminate T; destruct HR as [N E], HR' as [N' E'].
  - apply (fin (/ (A * A)) _ _ _ _ ltac:(apply Rinv_neq_0_compat; nra) N E E');
      rewrite <- at_frequency_scale; f_equal; set (q := sqrt A) in *; clearbody q A al c; subst A; field; lra.
  - apply (fin (/ (A * A)) _ _ _ _ ltac:(apply Rinv_neq_0_compat; nra) N E E');
      rewrite <- at_frequency_scale; f_equal; set (q := sqrt A) in *; clearbody q A al c; subst A; field; lra.
  - apply (fin 1 _ _ _ _ R1_neq_R0 N E E'); rewrite <- at_frequency_scale; f_equal; field; lra.
Qed.
Print Assumptions C47_boost_cut.

Theorem C47_zero_gain p fs w :
  has_gain (p_type p) = true -> p_gain p = 0 -> in_range p fs ->
  has_response (calculateIirCoefficients p fs) w (creal 1).
Proof.
  intros T G I. apply raw_response; [exact I|]. unfold raw.
  rewrite G, linear_amplitude, amplitude_0, sqrt_1, sqrt_1.
  destruct (p_type p); try discriminate T; unfold at_frequency, cadd, cmul, creal;
    apply cplx_eq; cbn [fst snd]; field; destruct I; lra.
Qed.
Print Assumptions C47_zero_gain.

(** List version: the designed sections in order, then sections that pass the signal
    unchanged; too short an output list is rejected. *)
Theorem C47_list params coeffs fs :
  match calculateIirCoefficientsList params coeffs fs with
  | Ok r => length r = length coeffs /\ (length params <= length coeffs)%nat
      /\ (forall i p, nth_error params i = Some p -> nth_error r i = Some (calculateIirCoefficients p fs))
      /\ forall i c, (length params <= i)%nat -> nth_error r i = Some c ->
           (forall w, has_response c w (creal 1))
           /\ forall xs ys, difference_equation 0 Rplus Rmult Rminus c xs ys -> ys = xs
  | Throw e => e = InvalidArgument /\ (length coeffs < length params)%nat
  | UB => False
  end.
Proof.
  unfold calculateIirCoefficientsList.
  destruct (Nat.ltb_spec (length coeffs) (length params)) as [L|L]; [auto|].
  split; [rewrite app_length, map_length, repeat_length; lia|]. split; [exact L|]. split.
  - intros i p E. rewrite nth_error_app1 by (rewrite map_length; apply nth_error_Some; congruence).
    now rewrite (map_nth_error (fun p => calculateIirCoefficients p fs) _ _ E).
  - intros i c Hi E. rewrite nth_error_app2, map_length in E by (now rewrite map_length).
    apply nth_error_In, repeat_spec in E. subst c. split.
    + intros w. unfold has_response, denominator, numerator, at_frequency, cadd, cmul, creal, flat.
      cbn [fst snd b0 b1 b2 a1 a2]. split; [intros [=]; lra|apply cplx_eq; cbn [fst snd]; ring].
    + intros xs ys [LE D]. apply (nth_ext _ _ 0 0 LE). intros n Hn. rewrite D by lia.
      cbn [flat b0 b1 b2 a1 a2]. ring.
Qed.
Print Assumptions C47_list.

(** A default-constructed section does not change magnitudes at any usual sampling frequency. *)
Theorem C47_default fs w H : 2 < fs ->
  has_response (calculateIirCoefficients default_param fs) w H -> cabs2 H = 1.
Proof.
  intros F. apply C47_allpass; [|reflexivity]. split; cbn; lra.
Qed.
Print Assumptions C47_default.

(** The parameters are stored unchecked: with a frequency above the Nyquist frequency the
    design is unstable (here a pole of magnitude greater than one). *)
Theorem C47_unchecked_frequency_refuted :
  exists p fs z, 0 < p_quality p /\ 0 < p_frequency p /\ 0 < fs
    /\ pole (calculateIirCoefficients p fs) z /\ 1 < cabs2 z.
Proof.
  exists (MkParam lowpass 3 1 0), 4, (0, sqrt 3). cbn [p_quality p_frequency].
  split; [lra|]. split; [lra|]. split; [lra|].
  assert (E : 2 * PI * 3 / 4 = 3 * (PI / 2)) by field.
  split; [|unfold cabs2; cbn [fst snd]; rewrite sqrt_sqrt; lra].
  unfold pole, calculateIirCoefficients. cbn [p_type p_frequency p_quality a1 a2].
  rewrite E, sin_3PI2, cos_3PI2. unfold cadd, cmul, creal. apply cplx_eq; cbn [fst snd].
  - assert (S := sqrt_sqrt 3 ltac:(lra)). field_simplify. replace (sqrt 3 ^ 2) with 3 by (simpl; lra). field.
  - field.
Qed.
Print Assumptions C47_unchecked_frequency_refuted.

(** *** Examples *)
Definition ex_shelf : iir_param := MkParam lowshelf 1000 1 6.
Example C47_stable_ex : in_range ex_shelf 48000.
Proof. split; cbn; lra. Qed.
Example C47_bounded_output_ex :
  (0 < 1)%nat /\ length [[ex_shelf; ex_shelf]] = 1%nat
  /\ (forall r, In r [[ex_shelf; ex_shelf]] -> length r = 2%nat)
  /\ (forall r p, In r [[ex_shelf; ex_shelf]] -> In p r -> in_range p 48000).
Proof.
  split; [lia|]. split; [reflexivity|]. split; [intros r [<-|[]]; reflexivity|].
  intros r p [<-|[]] [<-|[<-|[]]]; exact C47_stable_ex.
Qed.
(** 20 dB boost of a peak filter: gain 10 at the centre frequency *)
Example C47_centre_gain_ex H :
  has_response (calculateIirCoefficients (MkParam peak 1000 1 20) 48000)
    (omega (MkParam peak 1000 1 20) 48000) H -> cabs2 H = 100.
Proof.
  intros HR. rewrite (C47_centre_gain (MkParam peak 1000 1 20) 48000 H ltac:(split; cbn; lra) HR).
  unfold centre_power, amplitude. cbn [p_type p_gain]. replace (20 / 20) with 1 by field.
  rewrite Rpower_1 by lra. ring.
Qed.
Example C47_dc_gain_ex :
  has_response (calculateIirCoefficients (MkParam lowshelf 1000 1 40) 48000) 0 (creal 100).
Proof.
  assert (H := C47_dc_gain (MkParam lowshelf 1000 1 40) 48000 ltac:(split; cbn; lra)).
  unfold dc_gain, amplitude in H. cbn [p_type p_gain] in H.
  replace (40 / 20) with (INR 2) in H by (cbn; field). rewrite Rpower_pow in H by lra.
  replace (10 ^ 2) with 100 in H by (cbn; ring). exact H.
Qed.
Example C47_nyquist_gain_ex :
  has_response (calculateIirCoefficients (MkParam highpass 100 2 0) 48000) PI (creal 1).
Proof. apply (C47_nyquist_gain (MkParam highpass 100 2 0)). split; cbn; lra. Qed.
Example C47_allpass_ex : in_range (MkParam allpass 100 2 0) 48000 /\ p_type (MkParam allpass 100 2 0) = allpass.
Proof. split; [split; cbn; lra|reflexivity]. Qed.
Example C47_list_ex :
  calculateIirCoefficientsList [ex_shelf] [flat; flat] 48000
  = Ok [calculateIirCoefficients ex_shelf 48000; flat]
  /\ calculateIirCoefficientsList [ex_shelf] [] 48000 = Throw InvalidArgument.
Proof. split; reflexivity. Qed.
