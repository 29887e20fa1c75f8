(** Termination and accuracy of the ranges of rbbl::FloatSequence. *)
From Coq Require Import ZArith Reals Lra Lia.
From Flocq Require Import Core.Core IEEE754.BinarySingleNaN.
From Verif Require Import Base FloatSeqModel FloatSeqProofs.
Local Open Scope Z_scope.

Section Real.
  Context {prec emax : Z} {Hp : Prec_gt_0 prec} {Hm : Prec_lt_emax prec emax}.
  Local Notation num := (binary_float prec emax).
  Local Notation emin := (3 - emax - prec).
  Local Notation fexp := (FLT_exp emin prec).
  Local Notation rnd := (round radix2 fexp ZnearestE).
  Local Notation format := (generic_format radix2 fexp).

  (** an increment leading upwards (downwards) *)
  Definition toward (up : bool) (inc : num) : Prop :=
    if up then Bltb (B754_zero false) inc = true else Bltb inc (B754_zero false) = true.
  (** sign of a direction *)
  Definition dirR (up : bool) (x : R) : R := if up then x else Ropp x.

  Lemma toward_cases up inc : toward up inc ->
    inc = B754_infinity (negb up) \/ is_finite inc = true /\ (0 < dirR up (B2R inc))%R.
  Proof.
    intros T. destruct (is_finite inc) eqn:F.
    - right. split; [reflexivity|]. destruct up; cbn [toward dirR] in *.
      + rewrite Bltb_correct in T by (reflexivity || exact F). revert T.
        case Rlt_bool_spec; [|discriminate]. simpl. intros H _. exact H.
      + rewrite Bltb_correct in T by (reflexivity || exact F). revert T.
        case Rlt_bool_spec; [|discriminate]. simpl. intros H _. lra.
    - left. destruct inc as [s|s| |s m x B]; try discriminate F.
      + destruct up, s; cbv in T; (discriminate T || reflexivity).
      + destruct up; cbv in T; discriminate T.
  Qed.

  Lemma format_num (x : num) : format (B2R x).
  Proof. exact (generic_format_B2R prec emax x). Qed.

  Local Instance fexp_valid : Valid_exp fexp.
  Proof. apply FLT_exp_valid. exact Hp. Qed.
  Local Instance fexp_mono : Monotone_exp fexp.
  Proof. apply FLT_exp_monotone. Qed.

  (** the rounded sum: exact value, or an overflow *)
  Lemma plus_cases (x y : num) : is_finite x = true -> is_finite y = true ->
    let r := rnd (B2R x + B2R y)%R in
    (is_finite (Bplus mode_NE x y) = true /\ B2R (Bplus mode_NE x y) = r /\ (Rabs r < bpow radix2 emax)%R)
    \/ (exists s, Bplus mode_NE x y = B754_infinity s /\ (bpow radix2 emax <= Rabs r)%R
        /\ (if s then (r < 0)%R else (0 < r)%R)).
  Proof.
    intros Fx Fy r. pose proof (Bplus_correct prec emax Hp Hm mode_NE x y Fx Fy) as C.
    change (round radix2 _ (round_mode mode_NE) (B2R x + B2R y)) with r in C. revert C.
    case Rlt_bool_spec; intros L.
    - intros (E & F & _). left. auto.
    - intros (E & S). right. exists (Bsign x). split; [|split; [exact L|]].
      + apply B2SF_inj. rewrite E. destruct (Bsign x); reflexivity.
      + assert (N : r <> 0%R).
        { intros Z. rewrite Z, Rabs_R0 in L. pose proof (bpow_gt_0 radix2 emax). lra. }
        assert (G : if Bsign x then (B2R x + B2R y <= 0)%R else (0 <= B2R x + B2R y)%R).
        { clear -S Fx Fy. assert (G : forall z : num, if Bsign z then (B2R z <= 0)%R else (0 <= B2R z)%R).
          { intros z. destruct z as [[]|[]| |[] m e B]; cbn [Bsign B2R]; try apply Rle_refl.
            - apply F2R_le_0. simpl. lia.
            - apply F2R_ge_0. simpl. lia. }
          pose proof (G x) as Gx. pose proof (G y) as Gy. rewrite <- S in Gy.
          destruct (Bsign x); lra. }
        destruct (Bsign x).
        * assert (r <= 0)%R; [|lra]. rewrite <- (round_0 radix2 fexp ZnearestE).
          apply round_le; [apply fexp_valid|apply valid_rnd_N|exact G].
        * assert (0 <= r)%R; [|lra]. rewrite <- (round_0 radix2 fexp ZnearestE).
          apply round_le; [apply fexp_valid|apply valid_rnd_N|exact G].
  Qed.

  (** one step in the direction of the increment *)
  Lemma step_cases up (x inc : num) : is_finite x = true -> toward up inc ->
    let y := Bplus mode_NE x inc in
    y = x \/ y = B754_infinity (negb up)
    \/ (is_finite y = true /\ (dirR up (B2R x) < dirR up (B2R y))%R).
  Proof.
    intros Fx T y. destruct (toward_cases up inc T) as [->|[Fi Pi]].
    - right. left. unfold y. destruct x as [s|s| |s m e B]; try discriminate Fx; reflexivity.
    - assert (M : (dirR up (B2R x) <= dirR up (rnd (B2R x + B2R inc)))%R).
      { destruct up; cbn [dirR] in *.
        - rewrite <- (round_generic radix2 fexp ZnearestE (B2R x) (format_num x)) at 1.
          apply round_le; [apply fexp_valid|apply valid_rnd_N|lra].
        - apply Ropp_le_contravar.
          rewrite <- (round_generic radix2 fexp ZnearestE (B2R x) (format_num x)) at 2.
          apply round_le; [apply fexp_valid|apply valid_rnd_N|lra]. }
      destruct (plus_cases x inc Fx Fi) as [(Fy & Ey & _)|(s & Es & L & S)].
      + fold y in Fy, Ey. rewrite <- Ey in M. destruct (Rlt_le_dec (dirR up (B2R x)) (dirR up (B2R y))) as [L|L].
        * right. right. auto.
        * left. assert (E : B2R y = B2R x) by (destruct up; cbn [dirR] in *; lra).
          assert (N : B2R x <> 0%R).
          { intros Z. rewrite Z in Ey, E. rewrite Rplus_0_l in Ey.
            rewrite round_generic in Ey by (apply valid_rnd_N || apply format_num).
            destruct up; cbn [dirR] in *; lra. }
          apply B2R_inj; [| |exact E]; apply is_finite_strict_B2R; congruence.
      + right. left. fold y in Es. rewrite Es. f_equal.
        pose proof (abs_B2R_lt_emax prec emax x) as B.
        destruct up, s; cbn [dirR negb] in *; try reflexivity;
          unfold Rabs in *; repeat destruct Rcase_abs; lra.
  Qed.

  Lemma inf_stays up inc : toward up inc ->
    Bplus mode_NE (B754_infinity (negb up) : num) inc = B754_infinity (negb up).
  Proof.
    intros T. destruct (toward_cases up inc T) as [->|[F _]].
    - simpl. now rewrite Bool.eqb_reflx.
    - destruct inc; try discriminate F; reflexivity.
  Qed.

  (** finite numbers are multiples of the smallest one *)
  Lemma grid (x : num) : exists z, B2R x = (IZR z * bpow radix2 emin)%R /\ Z.abs z < 2 ^ (emax - emin).
  Proof.
    destruct (FIX_format_generic radix2 emin (B2R x)
      (generic_format_FIX_FLT radix2 emin prec _ (format_num x))) as [f E X].
    exists (Fnum f). rewrite E. unfold F2R. rewrite X. split; [reflexivity|].
    pose proof (abs_B2R_lt_emax prec emax x) as B. rewrite E in B. unfold F2R in B. rewrite X in B.
    rewrite Rabs_mult, (Rabs_pos_eq (bpow radix2 emin)) in B by apply bpow_ge_0.
    rewrite <- abs_IZR in B. apply lt_IZR. change 2 with (radix_val radix2).
    rewrite IZR_Zpower by (unfold Prec_lt_emax, Prec_gt_0 in *; lia).
    apply Rmult_lt_reg_r with (bpow radix2 emin); [apply bpow_gt_0|].
    rewrite <- bpow_plus. replace (emax - emin + emin) with emax by lia. exact B.
  Qed.

  Definition stuck (up : bool) (v inc e : num) : Prop :=
    exists k, (forall i, (i <= k)%nat -> within up e (term v inc i))
      /\ term v inc (S k) = term v inc k.

  Lemma stuck_next up v inc e : within up e v -> stuck up (Bplus mode_NE v inc) inc e -> stuck up v inc e.
  Proof.
    intros W (k & A & B). exists (S k). split.
    - intros [|i] Hi; [exact W|]. rewrite <- term_next. apply A. lia.
    - rewrite <- (term_next v inc (S k)), <- (term_next v inc k). exact B.
  Qed.

  Lemma stuck_or_ends_finite up inc e : toward up inc -> forall (d : nat) (v : num) z, is_finite v = true ->
    dirR up (B2R v) = (IZR z * bpow radix2 emin)%R -> 2 ^ (emax - emin) - z < Z.of_nat d ->
    stuck up v inc e \/ exists n l, loop up n v inc e = Ok l.
  Proof.
    intros T. induction d as [|d IH]; intros v z Fv Ev Hd.
    - exfalso. destruct (grid v) as (z' & E' & B').
      assert (z = if up then z' else - z').
      { apply eq_IZR. apply Rmult_eq_reg_r with (bpow radix2 emin);
          [|pose proof (bpow_gt_0 radix2 emin); lra].
        rewrite <- Ev. destruct up; cbn [dirR]; rewrite ?opp_IZR, E'; ring. }
      destruct up; lia.
    - destruct (keep up e v) eqn:K.
      2:{ right. exists 1%nat, []. rewrite loop_S, K. reflexivity. }
      apply keep_within in K.
      assert (D : stuck up v inc e
                  \/ exists n l, loop up n (Bplus mode_NE v inc) inc e = Ok l).
      { destruct (step_cases up v inc Fv T) as [E|[E|[F L]]].
        - left. exists 0%nat. split; [intros i Hi; replace i with 0%nat by lia; exact K|exact E].
        - destruct (keep up e (Bplus mode_NE v inc)) eqn:K1.
          + left. exists 1%nat. apply keep_within in K1. split.
            * intros [|[|i]] Hi; [exact K|exact K1|lia].
            * rewrite !term_S, term_0, E. now apply inf_stays.
          + right. exists 1%nat, []. rewrite loop_S, K1. reflexivity.
        - destruct (grid (Bplus mode_NE v inc)) as (z' & E' & _).
          destruct (IH (Bplus mode_NE v inc) (if up then z' else - z')) as [St|En].
          + exact F.
          + destruct up; cbn [dirR]; rewrite ?opp_IZR, E'; ring.
          + assert (z < if up then z' else - z'); [|lia].
            apply lt_IZR. apply Rmult_lt_reg_r with (bpow radix2 emin); [apply bpow_gt_0|].
            rewrite <- Ev. destruct up; cbn [dirR] in *; rewrite ?opp_IZR; rewrite E' in L; lra.
          + left. now apply stuck_next.
          + right. exact En. }
      destruct D as [S|(n & l & E)]; [now left|right]. exists (S n), (v :: l).
      rewrite loop_S. apply keep_within in K. rewrite K, E. reflexivity.
  Qed.

  Lemma stuck_or_ends up v inc e : toward up inc ->
    stuck up v inc e \/ exists n l, loop up n v inc e = Ok l.
  Proof.
    intros T. destruct (is_finite v) eqn:F.
    - destruct (grid v) as (z & E & B).
      apply (stuck_or_ends_finite up inc e T
        (Z.to_nat (2 ^ (emax - emin) - (if up then z else - z) + 1)) v (if up then z else - z) F).
      + destruct up; cbn [dirR]; rewrite ?opp_IZR, E; ring.
      + destruct up; lia.
    - destruct (keep up e v) eqn:K.
      2:{ right. exists 1%nat, []. rewrite loop_S, K. reflexivity. }
      destruct v as [s|s| |s m x B]; try discriminate F.
      + destruct (toward_cases up inc T) as [->|[Fi _]].
        * destruct (Bool.eqb s (negb up)) eqn:E.
          -- left. exists 0%nat. apply keep_within in K.
             split; [intros i Hi; replace i with 0%nat by lia; exact K|].
             rewrite term_S, term_0. unfold Bplus. rewrite E. reflexivity.
          -- right. exists 2%nat, [B754_infinity s]. rewrite !loop_S, K. cbn [Bplus]. rewrite E.
             destruct up; destruct e as [[]|[]| |[] m x B]; reflexivity.
        * left. exists 0%nat. apply keep_within in K.
          split; [intros i Hi; replace i with 0%nat by lia; exact K|].
          destruct inc; try discriminate Fi; reflexivity.
      + right. exists 1%nat, []. destruct up; destruct e as [[]|[]| |[] m x B]; reflexivity.
  Qed.

  Lemma ends_iff up v inc e : toward up inc ->
    ((exists n l, loop up n v inc e = Ok l) <-> ~ stuck up v inc e).
  Proof.
    intros T. split.
    - intros (n & l & E) (k & A & B). rewrite (stuck_forever up v inc e k A B n) in E. discriminate.
    - intros N. destruct (stuck_or_ends up v inc e T) as [S|E]; [contradiction|exact E].
  Qed.

  (** ** Quantitative conditions *)
  Lemma within_finite up (e x : num) : is_finite e = true -> is_finite x = true ->
    (within up e x <-> (dirR up (B2R x) <= dirR up (B2R e))%R).
  Proof.
    intros Fe Fx. rewrite <- keep_within. destruct up; cbn [keep dirR];
      rewrite Bleb_correct by assumption; case Rle_bool_spec; intros H; split; intros G;
      (discriminate G || lra || reflexivity).
  Qed.

  Lemma plus_inf (x inc : num) s : is_finite inc = true -> x = B754_infinity s ->
    Bplus mode_NE x inc = x.
  Proof. intros F ->. destruct inc; try discriminate F; reflexivity. Qed.

  (** an end that is not left is never passed *)
  Lemma keeps_within up (v inc e : num) : toward up inc -> is_finite inc = true -> is_finite e = true ->
    within up e (Bplus mode_NE e inc) -> within up e v -> within up e (Bplus mode_NE v inc).
  Proof.
    intros T Fi Fe We Wv. destruct (is_finite v) eqn:Fv.
    - destruct (plus_cases e inc Fe Fi) as [(F1 & E1 & B1)|(s & E1 & _ & S)].
      + apply within_finite in We; [|assumption|assumption].
        apply within_finite in Wv; [|assumption|assumption].
        assert (M : (dirR up (rnd (B2R v + B2R inc)) <= dirR up (rnd (B2R e + B2R inc)))%R).
        { destruct up; cbn [dirR] in *; [|apply Ropp_le_contravar];
            (apply round_le; [apply fexp_valid|apply valid_rnd_N|lra]). }
        rewrite E1 in We.
        destruct (plus_cases v inc Fv Fi) as [(F2 & E2 & B2)|(s & E2 & B2 & S)].
        * apply within_finite; [assumption|assumption|]. rewrite E2. lra.
        * exfalso. destruct (toward_cases up inc T) as [->|[_ P]]; [discriminate Fi|].
          assert (Hs : s = negb up).
          { destruct (step_cases up v inc Fv T) as [E|[E|[F _]]].
            - rewrite E in E2. subst v. discriminate Fv.
            - rewrite E in E2. congruence.
            - rewrite E2 in F. discriminate F. }
          subst s. destruct up; cbn [negb dirR] in *;
            unfold Rabs in *; repeat destruct Rcase_abs; lra.
      + exfalso. destruct (step_cases up e inc Fe T) as [E|[E|[F _]]].
        * rewrite E in E1. subst e. discriminate Fe.
        * rewrite E in We. destruct up, e as [[]|[]| |[] m x B]; try discriminate Fe; destruct We; discriminate.
        * rewrite E1 in F. discriminate F.
    - destruct v as [s|s| |s m x B]; try discriminate Fv.
      + now rewrite (plus_inf _ inc s Fi eq_refl).
      + exfalso. destruct up, e as [[]|[]| |[] m x B]; destruct Wv; discriminate.
  Qed.

  Lemma never_ends up (v inc e : num) : toward up inc -> is_finite inc = true -> is_finite e = true ->
    within up e (Bplus mode_NE e inc) -> within up e v -> forall n, loop up n v inc e = UB.
  Proof.
    intros T Fi Fe We Wv n. revert v Wv. induction n as [|n IH]; intros v Wv; [apply loop_0|].
    rewrite loop_S. pose proof (proj2 (keep_within up e v) Wv) as K. rewrite K, IH; [reflexivity|].
    now apply keeps_within.
  Qed.

  (** the end absorbs the increment *)
  Lemma absorbed up (inc e : num) k : toward up inc -> is_finite e = true ->
    (bpow radix2 k <= dirR up (B2R e))%R -> is_finite inc = true ->
    (dirR up (B2R inc) < bpow radix2 (k - prec))%R ->
    within up e (Bplus mode_NE e inc).
  Proof.
    intros T Fe Le Fi Li. pose proof (bpow_gt_0 radix2 k) as Pk.
    set (x := dirR up (B2R e)) in *. set (d := dirR up (B2R inc)) in *.
    assert (Fx : format x).
    { unfold x. destruct up; cbn [dirR]; [|apply generic_format_opp]; apply format_num. }
    assert (U : (bpow radix2 (k + 1 - prec) <= ulp radix2 fexp x)%R).
    { rewrite ulp_neq_0 by lra. apply bpow_le.
      apply Z.le_trans with (fexp (k + 1)); [unfold FLT_exp; lia|].
      apply cexp_ge_bpow; [apply fexp_mono|]. replace (k + 1 - 1) with k by lia.
      rewrite Rabs_pos_eq by lra. exact Le. }
    assert (D : (rnd (x + d) <= x)%R).
    { apply round_N_le_midp; [apply fexp_valid|exact Fx|]. rewrite succ_eq_pos by lra.
      replace (k + 1 - prec) with (k - prec + 1) in U by lia. rewrite bpow_plus in U.
      change (bpow radix2 1) with 2%R in U. lra. }
    assert (D' : (dirR up (rnd (B2R e + B2R inc)) <= x)%R).
    { destruct up; cbn [dirR] in *; [exact D|]. unfold x, d in D.
      rewrite <- round_NE_opp. replace (- (B2R e + B2R inc))%R with (- B2R e + - B2R inc)%R by ring.
      exact D. }
    destruct (plus_cases e inc Fe Fi) as [(F1 & E1 & B1)|(s & E1 & B1 & S)].
    - apply within_finite; [assumption|assumption|]. rewrite E1. exact D'.
    - exfalso. pose proof (abs_B2R_lt_emax prec emax e) as B.
      destruct (step_cases up e inc Fe T) as [E|[E|[F _]]].
      + rewrite E in E1. subst e. discriminate Fe.
      + rewrite E in E1. injection E1 as <-.
        unfold x in *. destruct up; cbn [negb dirR] in *; unfold Rabs in *; repeat destruct Rcase_abs; lra.
      + rewrite E1 in F. discriminate F.
  Qed.

  (** an increment of at least a unit in the last place is not absorbed *)
  Lemma not_absorbed up (x inc : num) k : is_finite x = true -> toward up inc ->
    (Rabs (B2R x) < bpow radix2 k)%R -> emin <= k - prec ->
    (is_finite inc = true -> (bpow radix2 (k - prec) <= dirR up (B2R inc))%R) ->
    Bplus mode_NE x inc <> x.
  Proof.
    intros Fx T Lx Hk Li E. destruct (toward_cases up inc T) as [->|[Fi Pi]].
    { destruct x; try discriminate Fx; discriminate E. }
    specialize (Li Fi). destruct (plus_cases x inc Fx Fi) as [(F1 & E1 & B1)|(s & E1 & B1 & S)].
    2:{ rewrite E in E1. subst x. discriminate Fx. }
    rewrite E in E1. set (y := dirR up (B2R x)) in *. set (d := dirR up (B2R inc)) in *.
    assert (Ey : y = rnd (y + d)%R).
    { unfold y, d. destruct up; cbn [dirR]; [exact E1|].
      replace (- B2R x + - B2R inc)%R with (- (B2R x + B2R inc))%R by ring.
      rewrite round_NE_opp. f_equal. exact E1. }
    assert (Fy : format y).
    { unfold y. destruct up; cbn [dirR]; [|apply generic_format_opp]; apply format_num. }
    assert (Ay : (Rabs y < bpow radix2 k)%R).
    { unfold y. destruct up; cbn [dirR]; [exact Lx|now rewrite Rabs_Ropp]. }
    destruct (Req_dec y 0) as [Z|N].
    - rewrite Z, Rplus_0_l in Ey.
      assert (Fd : format d).
      { unfold d. destruct up; cbn [dirR]; [|apply generic_format_opp]; apply format_num. }
      rewrite round_generic in Ey by (apply valid_rnd_N || exact Fd). lra.
    - assert (U : (ulp radix2 fexp y <= bpow radix2 (k - prec))%R).
      { rewrite ulp_neq_0 by exact N. apply bpow_le. unfold cexp, FLT_exp.
        pose proof (mag_le_bpow radix2 y k N Ay). lia. }
      pose proof (succ_le_plus_ulp radix2 fexp y) as S.
      pose proof (succ_gt_id radix2 fexp y N) as G.
      assert (M : (succ radix2 fexp y <= rnd (y + d))%R).
      { rewrite <- (round_generic radix2 fexp ZnearestE (succ radix2 fexp y)) at 1
          by (apply generic_format_succ; [apply fexp_valid|exact Fy]).
        apply round_le; [apply fexp_valid|apply valid_rnd_N|lra]. }
      lra.
  Qed.

  Lemma term_inf up (v inc : num) : toward up inc -> is_finite v = true -> forall i,
    term v inc i = B754_infinity (negb up)
    \/ is_finite (term v inc i) = true /\ (dirR up (B2R v) <= dirR up (B2R (term v inc i)))%R.
  Proof.
    intros T F. induction i as [|i [IH|[IH L]]].
    - right. split; [exact F|apply Rle_refl].
    - left. rewrite term_S, IH. now apply inf_stays.
    - rewrite term_S. destruct (step_cases up _ inc IH T) as [E|[E|[F1 L1]]].
      + right. rewrite E. auto.
      + now left.
      + right. split; [exact F1|lra].
  Qed.

  Lemma always_ends up (v inc e : num) k : toward up inc ->
    is_finite v = true -> is_finite e = true -> emin <= k - prec ->
    (Rabs (B2R v) < bpow radix2 k)%R -> (Rabs (B2R e) < bpow radix2 k)%R ->
    (is_finite inc = true -> (bpow radix2 (k - prec) <= dirR up (B2R inc))%R) ->
    exists n l, loop up n v inc e = Ok l.
  Proof.
    intros T Fv Fe Hk Lv Le Li. apply (ends_iff up v inc e T). intros (i & A & B).
    destruct (term_inf up v inc T Fv i) as [E|[F L]].
    - specialize (A i (Nat.le_refl i)). rewrite E in A.
      destruct up, e as [[]|[]| |[] m x Bd]; try discriminate Fe; destruct A; discriminate.
    - specialize (A i (Nat.le_refl i)). apply within_finite in A; [|assumption|assumption].
      apply (not_absorbed up (term v inc i) inc k); try assumption.
      destruct up; cbn [dirR] in *; unfold Rabs in *; repeat destruct Rcase_abs; lra.
  Qed.

  (** ** Exact ranges *)
  Definition on_grid (q : Z) (x : num) (a : Z) : Prop :=
    is_finite x = true /\ B2R x = (IZR a * bpow radix2 q)%R.

  Lemma grid_format q a : emin <= q -> Z.abs a <= 2 ^ prec -> format (IZR a * bpow radix2 q)%R.
  Proof.
    intros Hq Ha. unfold Prec_gt_0 in Hp.
    destruct (Z.eq_dec (Z.abs a) (2 ^ prec)) as [E|N].
    - assert (G : format (bpow radix2 (prec + q))).
      { apply generic_format_bpow. unfold FLT_exp. lia. }
      assert (E2 : IZR (2 ^ prec) = bpow radix2 prec).
      { change 2 with (radix_val radix2). apply IZR_Zpower. lia. }
      rewrite bpow_plus, <- E2 in G. destruct (Z.abs_eq_or_opp a) as [P|P].
      + rewrite P in E. rewrite E. exact G.
      + assert (a = - 2 ^ prec) by lia. subst a. rewrite opp_IZR, Ropp_mult_distr_l_reverse.
        now apply generic_format_opp.
    - apply generic_format_FLT. exists (Float radix2 a q).
      + reflexivity.
      + simpl Fnum. change (radix2 ^ prec) with (2 ^ prec). lia.
      + exact Hq.
  Qed.

  Lemma grid_plus q x y a b : emin <= q -> prec + q < emax -> on_grid q x a -> on_grid q y b ->
    Z.abs (a + b) <= 2 ^ prec -> on_grid q (Bplus mode_NE x y) (a + b).
  Proof.
    intros Hq Ho [Fx Ex] [Fy Ey] Ha.
    assert (S : (B2R x + B2R y = IZR (a + b) * bpow radix2 q)%R) by (rewrite Ex, Ey, plus_IZR; ring).
    destruct (plus_cases x y Fx Fy) as [(F & E & _)|(s & _ & B & _)].
    - split; [exact F|]. rewrite E, S. apply round_generic; [apply valid_rnd_N|now apply grid_format].
    - exfalso. rewrite S in B. rewrite round_generic in B by (apply valid_rnd_N || now apply grid_format).
      rewrite Rabs_mult, <- abs_IZR, (Rabs_pos_eq (bpow radix2 q)) in B by apply bpow_ge_0.
      assert (G : (IZR (Z.abs (a + b)) * bpow radix2 q <= bpow radix2 (prec + q))%R).
      { rewrite bpow_plus. apply Rmult_le_compat_r; [apply bpow_ge_0|].
        rewrite <- IZR_Zpower by (unfold Prec_gt_0 in Hp; lia). apply IZR_le. exact Ha. }
      pose proof (bpow_lt radix2 (prec + q) emax Ho). lra.
  Qed.

  Lemma grid_within up q e x b a : on_grid q e b -> on_grid q x a ->
    (within up e x <-> if up then a <= b else b <= a).
  Proof.
    intros [Fe Ee] [Fx Ex]. rewrite within_finite by assumption.
    pose proof (bpow_gt_0 radix2 q) as P.
    destruct up; cbn [dirR]; rewrite Ee, Ex; split; intros H.
    - apply le_IZR. apply Rmult_le_reg_r with (bpow radix2 q); assumption.
    - apply Rmult_le_compat_r; [lra|]. now apply IZR_le.
    - apply le_IZR. apply Rmult_le_reg_r with (bpow radix2 q); [assumption|lra].
    - apply Ropp_le_contravar. apply Rmult_le_compat_r; [lra|]. now apply IZR_le.
  Qed.

  Lemma exact_range (up : bool) q (v inc e : num) (a i b : Z) : emin <= q -> prec + q < emax ->
    on_grid q v a -> on_grid q inc i -> on_grid q e b ->
    (if up then 0 < i else i < 0) -> Z.abs a <= 2 ^ prec -> Z.abs b + Z.abs i <= 2 ^ prec ->
    exists n, (forall k, (k < n)%nat <-> if up then a + Z.of_nat k * i <= b else b <= a + Z.of_nat k * i)
      /\ (forall k, (k <= n)%nat -> on_grid q (term v inc k) (a + Z.of_nat k * i))
      /\ ranges up v inc e (map (term v inc) (seq 0 n)).
  Proof.
    intros Hq Ho Gv Gi Ge Hi Ha Hb.
    assert (Hn : exists n, forall k, (k < n)%nat <-> if up then a + Z.of_nat k * i <= b else b <= a + Z.of_nat k * i).
    { exists (Z.to_nat ((b - a) / i + 1)). intros k.
      assert (Hi0 : i <> 0) by (destruct up; lia).
      assert (G : Z.of_nat k <= (b - a) / i <-> if up then a + Z.of_nat k * i <= b else b <= a + Z.of_nat k * i).
      { destruct up.
        - split; intros H.
          + pose proof (Z.mul_div_le (b - a) i Hi). nia.
          + apply Z.div_le_lower_bound; lia.
        - rewrite <- (Z.div_opp_opp (b - a) i) by lia. split; intros H.
          + pose proof (Z.mul_div_le (- (b - a)) (- i) ltac:(lia)). nia.
          + apply Z.div_le_lower_bound; lia. }
      rewrite <- G. lia. }
    destruct Hn as (n & Hn). exists n. split; [exact Hn|].
    assert (Hk : forall k, (k <= n)%nat -> on_grid q (term v inc k) (a + Z.of_nat k * i)).
    { induction k as [|k IH]; intros L.
      - rewrite term_0. replace (a + Z.of_nat 0 * i) with a by lia. exact Gv.
      - rewrite term_S. replace (a + Z.of_nat (S k) * i) with (a + Z.of_nat k * i + i) by lia.
        apply grid_plus; try assumption; [apply IH; lia|].
        pose proof (proj1 (Hn k) ltac:(lia)) as W. destruct up; nia. }
    split; [exact Hk|]. exists n. split; [reflexivity|]. split.
    - intros k L. apply (grid_within up q e _ b (a + Z.of_nat k * i)); [assumption|apply Hk; lia|].
      apply Hn. exact L.
    - intros W. apply (grid_within up q e _ b (a + Z.of_nat n * i)) in W; [|assumption|apply Hk; lia].
      apply Hn in W. lia.
  Qed.
End Real.
