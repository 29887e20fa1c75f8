(** Power normalisation, distance, triangulations and planar arrays for vector base amplitude panning. *)
From Verif Require Import Base QuaternionModel QuaternionProofs ListenerModel VbapModel VbapSpec VbapProofs.
From Coq Require Import Reals Lra Permutation.
Local Open Scope R_scope.
Local Open Scope res_scope.

(** *** Sums *)
Fixpoint rsum (l : list R) : R := match l with [] => 0 | x :: l' => x + rsum l' end.
Lemma rsum_app l l' : rsum (l ++ l') = rsum l + rsum l'.
Proof. induction l; cbn; lra. Qed.
Lemma rsum_nonneg (f : nat -> R) l : (forall k, 0 <= f k) -> 0 <= rsum (map f l).
Proof. intros F. induction l; cbn; [lra|]. specialize (F a). lra. Qed.
Lemma rsum_incl (f : nat -> R) l : (forall k, 0 <= f k) -> forall l', NoDup l' -> incl l' l -> rsum (map f l') <= rsum (map f l).
Proof.
  intros F l'. revert l. induction l' as [|x l' IH]; intros l N I; [now apply rsum_nonneg|].
  destruct (in_split x l) as (l1 & l2 & ->); [apply I; now left|]. inversion N as [|? ? N1 N2]; subst.
  assert (H : rsum (map f l') <= rsum (map f (l1 ++ l2))).
  { apply IH; [exact N2|]. intros y Hy. specialize (I y (or_intror Hy)). apply in_app_or in I as [I|[<-|I]]; [apply in_or_app; now left|now elim N1|apply in_or_app; now right]. }
  rewrite map_app, rsum_app in *. cbn. lra.
Qed.
Lemma power_rsum gains : power gains = rsum (map (fun k => nth k gains 0 * nth k gains 0) (seq 0 (length gains))).
Proof.
  induction gains as [|g gs IH]; [reflexivity|]. cbn [power fold_right length seq map rsum nth]. unfold power in IH. rewrite IH. f_equal.
  rewrite <- seq_shift, map_map. reflexivity.
Qed.
Lemma power_at_least gains l : NoDup l -> (forall k, In k l -> (k < length gains)%nat) -> rsum (map (fun k => nth k gains 0 * nth k gains 0) l) <= power gains.
Proof.
  intros N B. rewrite power_rsum. apply rsum_incl; [intros k; apply Rle_0_sqr|exact N|]. intros k Hk. apply in_seq. specialize (B k Hk). lia.
Qed.
Definition square (p : pos3 R) : R := px p * px p + py p * py p + pz p * pz p.
Lemma norm3_square p : norm3 p = sqrt (square p). Proof. reflexivity. Qed.
Lemma square_nonneg p : 0 <= square p. Proof. unfold square. nra. Qed.
Lemma towards_unit l s : 0 < distance l s -> square (towards l s) = 1.
Proof.
  unfold distance, towards. set (d := P3 _ _ _). intros H. rewrite norm3_square in H. unfold square at 1, scale3. cbn [px py pz].
  assert (N : norm3 d * norm3 d = square d) by (rewrite norm3_square; apply sqrt_def, square_nonneg).
  assert (H' : 0 < norm3 d) by (rewrite norm3_square; exact H).
  replace (_ + _) with (square d * / (norm3 d * norm3 d)) by (unfold square; field; lra). rewrite N. apply Rinv_r. rewrite <- N. nra.
Qed.
Lemma combine_square x y z u v w : square u = 1 -> square v = 1 -> square w = 1 -> square (combine3 x y z u v w) <= 3 * (x * x + y * y + z * z).
Proof.
  unfold square, combine3, add3, scale3. cbn [px py pz]. intros U V W.
  assert (T : forall a b c : R, (a + (b + c)) * (a + (b + c)) <= 3 * (a * a + b * b + c * c)).
  { intros a b c. pose proof (Rle_0_sqr (a - b)). pose proof (Rle_0_sqr (b - c)). pose proof (Rle_0_sqr (a - c)). unfold Rsqr in *. lra. }
  eapply Rle_trans; [apply Rplus_le_compat; [apply Rplus_le_compat|]; apply T|].
  replace (3 * (x * x + y * y + z * z)) with (3 * (x * x * 1 + y * y * 1 + z * z * 1)) by ring. rewrite <- U at 1. rewrite <- V at 1. rewrite <- W at 1. lra.
Qed.

(** *** Normalisation *)
Lemma applyRerouting_regular a gain : length gain = length (a_positions a) -> a_regular a = length (a_positions a) -> applyRerouting a gain = gain.
Proof.
  intros L E. unfold applyRerouting. rewrite E, Nat.sub_diag. cbn [seq fold_left]. rewrite <- L. clear.
  apply (nth_ext _ _ 0 0); [now rewrite map_length, seq_length|]. intros k H. rewrite map_length, seq_length in H.
  rewrite (nth_indep _ 0 ((fun i => nth i gain 0) 0%nat)) by now rewrite map_length, seq_length.
  rewrite (map_nth (fun i => nth i gain 0)). now rewrite seq_nth.
Qed.
Lemma powerNormalisation_loud epsilon gains : 0 < epsilon -> epsilon * epsilon <= power gains ->
  power (powerNormalisation epsilon gains) = 1 /\ exists k, 0 < k /\ powerNormalisation epsilon gains = map (fun g => k * g) gains
    /\ k * sqrt (power gains) = 1.
Proof.
  intros E L. unfold powerNormalisation. rewrite power_eq. assert (S : epsilon <= sqrt (power gains)).
  { rewrite <- (sqrt_square epsilon) by lra. now apply sqrt_le_1_alt. }
  rewrite Rmax_left by exact S. assert (P : 0 < sqrt (power gains)) by lra. split.
  - rewrite power_scale. assert (Q := sqrt_def (power gains) (power_nonneg gains)). set (s := sqrt (power gains)) in *. rewrite <- Q. field. lra.
  - exists (1 / sqrt (power gains)). repeat split; [apply Rdiv_lt_0_compat; lra|field; lra].
Qed.
(** the normalised gains never have more than unit power *)
Lemma powerNormalisation_bound epsilon gains : 0 < epsilon -> power (powerNormalisation epsilon gains) <= 1.
Proof.
  intros E. unfold powerNormalisation. rewrite power_eq, power_scale. set (s := sqrt _). assert (Q : s * s = power gains) by apply sqrt_def, power_nonneg.
  assert (S : 0 <= s) by apply sqrt_pos. assert (M : s <= Rmax s epsilon) by apply Rmax_l. assert (M' : 0 < Rmax s epsilon) by (eapply Rlt_le_trans; [exact E|apply Rmax_r]).
  rewrite <- Q. replace (1 / Rmax s epsilon * (1 / Rmax s epsilon) * (s * s)) with ((s / Rmax s epsilon) * (s / Rmax s epsilon)) by (field; lra).
  assert (D : s / Rmax s epsilon <= 1) by (apply (Rmult_le_reg_r (Rmax s epsilon)); [exact M'|]; replace (s / Rmax s epsilon * Rmax s epsilon) with s by (field; lra); lra).
  assert (D' : 0 <= s / Rmax s epsilon) by (apply Rmult_le_pos; [exact S|left; now apply Rinv_0_lt_compat]). nra.
Qed.

Section Laws.
  Variable epsilon : R.
  Hypothesis Heps : 0 < epsilon.

  Lemma represents_power a l t g gain u v w : placed epsilon a l -> In t (a_triplets a) -> legs a l t u v w -> represents a t g gain ->
    square (total gain (directions a l)) <= 3 * power gain.
  Proof using Heps.
    intros P T L R. rewrite (represents_total epsilon a l t g gain u v w P T L R). destruct R as [LG N]. destruct (legs_distinct epsilon a l t P T) as [D12 D3].
    destruct (legs_bound a l t u v w L) as (B1 & B2 & B3).
    assert (U : forall i x, nth_error (directions a l) i = Some x -> square x = 1).
    { intros i x H. apply position_direction in H as (s & _ & I & ->). apply towards_unit. pose proof (pl_far epsilon a l P s I). lra. }
    assert (L' := L). destruct L' as (A & B & C). destruct (a_2D a) eqn:ED.
    - eapply Rle_trans; [apply combine_square|].
      + now apply (U (t_1 t)). + now apply (U (t_2 t)). + subst w. apply towards_unit. pose proof (pl_up epsilon a l P ED). lra.
      + pose proof (power_at_least gain [t_1 t; t_2 t]) as Q. cbn [map rsum] in Q. rewrite !N in Q. unfold gain_of in Q. rewrite Nat.eqb_refl in Q.
        destruct (Nat.eqb_spec (t_2 t) (t_1 t)); [congruence|]. rewrite Nat.eqb_refl in Q.
        assert (Q1 : NoDup [t_1 t; t_2 t]) by (repeat constructor; cbn; intuition). specialize (Q Q1).
        assert (Q2 : forall k, In k [t_1 t; t_2 t] -> (k < length gain)%nat) by (intros k [<-|[<-|[]]]; lia). specialize (Q Q2). lra.
    - destruct C as (i3 & T3 & C). destruct (D3 eq_refl i3 T3) as [D13 D23]. destruct (B3 eq_refl) as (i3' & T3' & Bi). rewrite T3 in T3'. apply Some_inj in T3'. subst i3'.
      eapply Rle_trans; [apply combine_square|].
      + now apply (U (t_1 t)). + now apply (U (t_2 t)). + now apply (U i3).
      + pose proof (power_at_least gain [t_1 t; t_2 t; i3]) as Q. cbn [map rsum] in Q. rewrite !N in Q. unfold gain_of in Q. rewrite ED, T3 in Q. rewrite !Nat.eqb_refl in Q.
        destruct (Nat.eqb_spec (t_2 t) (t_1 t)); [congruence|]. destruct (Nat.eqb_spec i3 (t_1 t)); [congruence|]. destruct (Nat.eqb_spec i3 (t_2 t)); [congruence|].
        assert (Q1 : NoDup [t_1 t; t_2 t; i3]) by (repeat constructor; cbn; intuition). specialize (Q Q1).
        assert (Q2 : forall k, In k [t_1 t; t_2 t; i3] -> (k < length gain)%nat) by (intros k [<-|[<-|[<-|[]]]]; lia). specialize (Q Q2). lra.
  Qed.

  (** *** The distance of the source *)
  Definition scaleg (k : R) (g : R * R * R) : R * R * R := (k * fst (fst g), k * snd (fst g), k * snd g).
  Lemma Rltb_scale k x y : 0 < k -> Rltb (k * x) (k * y) = Rltb x y.
  Proof using. intros K. apply eq_true_iff_eq. rewrite !Rltb_lt. split; intros H; [|nra]. apply (Rmult_lt_reg_l k); assumption. Qed.
  Lemma Rleb_scale k x : 0 < k -> Rleb 0 (k * x) = Rleb 0 x.
  Proof using. intros K. apply eq_true_iff_eq. rewrite !Rleb_le. split; intros H; [|nra]. apply (Rmult_le_reg_l k); [assumption|lra]. Qed.
  Lemma search'_scale is2D k : 0 < k -> forall gs j best,
    search' is2D (map (scaleg k) gs) j (match best with Some (i, b) => Some (i, scaleg k b) | None => None end)
    = match search' is2D gs j best with Some (i, b) => Some (i, scaleg k b) | None => None end.
  Proof using.
    intros K. induction gs as [|[[x y] z] gs IH]; intros j best; [reflexivity|]. cbn [map search'].
    assert (EI : insideb is2D (scaleg k (x, y, z)) = insideb is2D (x, y, z)) by (unfold insideb, scaleg; cbn [fst snd]; now rewrite !Rleb_scale).
    assert (EN : negatives (scaleg k (x, y, z)) = negatives (x, y, z)).
    { unfold negatives, scaleg. cbn [fst snd]. rewrite <- (Rmult_0_r k). now rewrite !Rltb_scale, !Rmult_0_r. }
    assert (EM : forall g, min3 (scaleg k g) = k * min3 g).
    { intros [[x' y'] z']. unfold min3, scaleg. cbn [fst snd].  unfold Rmin.
      destruct (Rle_dec y' z'), (Rle_dec (k * y') (k * z')); try (destruct (Rle_dec x' y')); try (destruct (Rle_dec x' z'));
        try (destruct (Rle_dec (k * x') (k * y'))); try (destruct (Rle_dec (k * x') (k * z'))); try reflexivity; nra. }
    rewrite EI, EN. destruct (insideb is2D (x, y, z)); [reflexivity|]. destruct best as [[i b]|].
    - rewrite !EM, Rltb_scale by exact K. destruct (Nat.leb (negatives (x, y, z)) 1 && _).
      + exact (IH (S j) (Some (j, (x, y, z)))). + exact (IH (S j) (Some (i, b))).
    - destruct (Nat.leb (negatives (x, y, z)) 1 && _).
      + exact (IH (S j) (Some (j, (x, y, z)))). + exact (IH (S j) None).
  Qed.
  Lemma vset_map k v i x : vset (map (fun g => k * g) v) i (k * x) = match vset v i x with Ok v' => Ok (map (fun g => k * g) v') | Throw e => Throw e | UB => UB end.
  Proof using.
    unfold vset. rewrite map_length. destruct (Nat.ltb i (length v)); [|reflexivity]. now rewrite map_app, firstn_map, map_cons, skipn_map.
  Qed.
  Lemma coords_scale k i p : coords i (scale3 k p) = scaleg k (coords i p).
  Proof using. unfold coords, scaleg, Rdot, scale3. cbn [fst snd px py pz]. f_equal; [f_equal|]; ring. Qed.
  Lemma plain_scale v pos pw pos' pw' k : 0 < k -> seen (v_array v) (v_listener v) pos' pw' = scale3 k (seen (v_array v) (v_listener v) pos pw) ->
    calcPlainVBAP v pos' pw' = match calcPlainVBAP v pos pw with Ok g => Ok (map (fun x => k * x) g) | Throw e => Throw e | UB => UB end.
  Proof using.
    intros K E. unfold calcPlainVBAP. set (a := v_array v) in *. set (l := v_listener v) in *.
    change (if a_2D a then P3 (px (if pw then pos else Rpsub pos l)) (py (if pw then pos else Rpsub pos l)) 0 else if pw then pos else Rpsub pos l) with (seen a l pos pw).
    change (if a_2D a then P3 (px (if pw' then pos' else Rpsub pos' l)) (py (if pw' then pos' else Rpsub pos' l)) 0 else if pw' then pos' else Rpsub pos' l) with (seen a l pos' pw').
    rewrite E, !search_eq by exact I. rewrite (map_ext _ (fun i => scaleg k (coords i (seen a l pos pw)))) by (intros; apply coords_scale).
    rewrite <- (map_map (fun i => coords i (seen a l pos pw)) (scaleg k)). rewrite (search'_scale _ k K _ _ None).
    destruct (search' _ _ _ _) as [[j [[g1 g2] g3]]|]; [|reflexivity]. cbn [scaleg fst snd]. destruct (nth_error (a_triplets a) j) as [t|]; [|reflexivity].
    assert (Z : repeat 0 (length (a_positions a)) = map (fun x => k * x) (repeat 0 (length (a_positions a)))).
    { induction (length (a_positions a)) as [|n IH]; [reflexivity|]. cbn. rewrite <- IH. f_equal. ring. }
    rewrite Z at 1. rewrite vset_map. destruct (vset _ (t_1 t) g1) as [z1|e|]; cbn [bind]; try reflexivity.
    rewrite vset_map. destruct (vset z1 (t_2 t) g2) as [z2|e|]; cbn [bind]; try reflexivity. destruct (a_2D a); [reflexivity|].
    destruct (t_3 t); [|reflexivity]. apply vset_map.
  Qed.

  (** *** Triangulations *)
  Lemma enclosed_represents a l t p gain : a_2D a = false -> placed epsilon a l -> In t (a_triplets a) -> encloses a l t p gain ->
    exists g, represents a t g gain /\ coordinates a l t p g /\ inside_cone (a_2D a) g.
  Proof using.
    intros D P T (L & N & S & E). destruct (pl_legs epsilon a l P t T) as (u & v & w & LL & V). assert (L' := LL). destruct L' as (A & B & C).
    rewrite D in C. destruct C as (i3 & T3 & C). exists (nth (t_1 t) gain 0, nth (t_2 t) gain 0, nth i3 gain 0).
    assert (R : represents a t (nth (t_1 t) gain 0, nth (t_2 t) gain 0, nth i3 gain 0) gain).
    { split; [exact L|]. intros k. unfold gain_of. rewrite D, T3. cbn [fst snd]. destruct (Nat.eqb_spec k (t_1 t)) as [N1|N1]; [now rewrite N1|].
      destruct (Nat.eqb_spec k (t_2 t)) as [N2|N2]; [now rewrite N2|]. destruct (Nat.eqb_spec k i3) as [N3|N3]; [now rewrite N3|].
      destruct (Req_EM_T (nth k gain 0) 0) as [Z|Z]; [exact Z|]. apply S in Z as [Z|[Z|[_ Z]]]; congruence. }
    split; [exact R|]. split.
    - exists u, v, w. split; [exact LL|]. rewrite <- E. rewrite (represents_total epsilon a l t _ gain u v w P T LL R). now rewrite D.
    - repeat split; cbn [fst snd]; [apply N|apply N|right; apply N].
  Qed.
  Lemma represents_encloses a l t p g gain : a_2D a = false -> placed epsilon a l -> In t (a_triplets a) -> represents a t g gain -> coordinates a l t p g ->
    inside_cone (a_2D a) g -> encloses a l t p gain.
  Proof using.
    intros D P T R (u & v & w & LL & E) (I1 & I2 & I3). assert (R' := R). destruct R' as [L N]. repeat split.
    - exact L.
    - intros k. rewrite N. unfold gain_of. rewrite D. destruct I3 as [I3|I3]; [congruence|]. destruct (Nat.eqb k (t_1 t)); [exact I1|].
      destruct (Nat.eqb k (t_2 t)); [exact I2|]. destruct (t_3 t) as [i|]; [|lra]. destruct (Nat.eqb k i); [exact I3|lra].
    - intros k H. rewrite N in H. unfold gain_of in H. rewrite D in H. unfold corner. destruct (Nat.eqb_spec k (t_1 t)) as [N1|N1]; [now left|].
      destruct (Nat.eqb_spec k (t_2 t)) as [N2|N2]; [now right; left|]. destruct (t_3 t) as [i|]; [|now elim H]. destruct (Nat.eqb_spec k i) as [->|N3]; [|now elim H].
      right. right. now split.
    - rewrite (represents_total epsilon a l t g gain u v w P T LL R), D. now symmetry.
  Qed.
  Lemma encloses_unique a l t p gain gain' : a_2D a = false -> placed epsilon a l -> In t (a_triplets a) -> encloses a l t p gain -> encloses a l t p gain' -> gain = gain'.
  Proof using.
    intros D P T E E'. destruct (enclosed_represents a l t p gain D P T E) as (g & R & C & _). destruct (enclosed_represents a l t p gain' D P T E') as (g' & R' & C' & _).
    rewrite (coordinates_unique epsilon a l t p g' g P T C' C) in R'. now apply (represents_unique a t g).
  Qed.
  Lemma triangulation_gains a l pos pw v t gain : a_2D a = false -> placed epsilon a l -> triangulation a l -> setListenerPosition epsilon a l = Ok v ->
    In t (a_triplets a) -> encloses a l t (seen a l pos pw) gain -> calcPlainVBAP v pos pw = Ok gain.
  Proof using Heps.
    intros D P Tr S T E. pose proof (plain_spec epsilon Heps a l pos pw v P S) as H. destruct (enclosed_represents a l t _ gain D P T E) as (g & R & C & I).
    destruct (calcPlainVBAP v pos pw) as [gain0|e|]; [|destruct H as [_ H]; now elim (proj1 (H t g T C))|contradiction].
    destruct H as (t0 & g0 & T0 & C0 & R0 & [I0|[N _]]); [|now elim (N t g T C)].
    pose proof (represents_encloses a l t0 _ g0 gain0 D P T0 R0 C0 I0) as E0. destruct (Tr t t0 _ T T0 (ex_intro _ gain E) (ex_intro _ gain0 E0)) as (h & H1 & H2).
    f_equal. rewrite (encloses_unique a l t0 _ gain0 h D P T0 E0 H2). apply (encloses_unique a l t _ h gain D P T H1 E).
  Qed.

  (** *** Planar arrays *)
  Lemma planar_coordinates a l t p g u v w : planar a l -> placed epsilon a l -> In t (a_triplets a) -> legs a l t u v w -> pz p = 0 -> p = comb g u v w -> snd g = 0.
  Proof using Heps.
    intros (D & L & S) P T (A & B & C) Z E. rewrite D in C. apply position_direction in A as (s1 & _ & I1 & ->). apply position_direction in B as (s2 & _ & I2 & ->).
    apply (f_equal pz) in E. rewrite Z in E. unfold comb, combine3, add3, scale3, towards in E. cbn [px py pz] in E. subst w.
    pose proof (pl_up epsilon a l P D) as Up. unfold distance in Up. unfold towards, scale3 in E. cbn [px py pz] in E. rewrite (S s1 I1), (S s2 I2), L in *.
    rewrite !Rminus_0_r in *. set (n := norm3 _) in Up. fold n in E. rewrite !Rmult_0_r, !Rplus_0_l, Rmult_1_r in E.
    symmetry in E. apply Rmult_integral in E as [E|E]; [exact E|]. change (/ n = 0) in E. assert (/ n > 0) by (apply Rinv_0_lt_compat; lra). lra.
  Qed.
  Lemma planar_total a l t g gain p : planar a l -> placed epsilon a l -> In t (a_triplets a) -> represents a t g gain -> coordinates a l t p g -> pz p = 0 ->
    total gain (directions a l) = p.
  Proof using Heps.
    intros PL P T R (u & v & w & LL & E) Z. rewrite (represents_total epsilon a l t g gain u v w P T LL R). assert (PL' := PL). destruct PL' as (D & _). rewrite D.
    pose proof (planar_coordinates a l t p g u v w PL P T LL Z E) as G. rewrite E. unfold comb. now rewrite G.
  Qed.
  Lemma seen_flat a l pos pw : a_2D a = true -> pz (seen a l pos pw) = 0.
  Proof using. intros D. unfold seen. now rewrite D. Qed.

  (** *** Gains of arrays without virtual loudspeakers *)
  Lemma plain_total a l pos pw v gain : placed epsilon a l -> (a_2D a = false \/ planar a l) -> setListenerPosition epsilon a l = Ok v ->
    calcPlainVBAP v pos pw = Ok gain -> length gain = length (a_positions a) /\ total gain (directions a l) = seen a l pos pw
      /\ square (seen a l pos pw) <= 3 * power gain.
  Proof using Heps.
    intros P K S E. pose proof (plain_spec epsilon Heps a l pos pw v P S) as H. rewrite E in H. destruct H as (t & g & T & C & R & _).
    assert (TT : total gain (directions a l) = seen a l pos pw).
    { destruct K as [D|PL].
      - destruct C as (u & w & x & LL & C). rewrite (represents_total epsilon a l t g gain u w x P T LL R), D. now symmetry.
      - apply (planar_total a l t g gain _ PL P T R C). apply seen_flat. apply PL. }
    split; [apply R|]. split; [exact TT|]. rewrite <- TT. destruct C as (u & w & x & LL & _). now apply (represents_power a l t g gain u w x).
  Qed.
  Lemma gains_normalised a l pos pw v r : placed epsilon a l -> (a_2D a = false \/ planar a l) -> a_regular a = length (a_positions a) ->
    setListenerPosition epsilon a l = Ok v -> v_array v = a -> 3 * (epsilon * epsilon) <= square (seen a l pos pw) -> calculateGains epsilon v pos pw = Ok r ->
    power r = 1 /\ exists k gain, 0 < k /\ calcPlainVBAP v pos pw = Ok gain /\ r = map (fun g => k * g) gain /\ k * sqrt (power gain) = 1
      /\ total r (directions a l) = scale3 k (seen a l pos pw).
  Proof using Heps.
    intros P K Rg S VA Far E. unfold calculateGains in E. destruct (calcPlainVBAP v pos pw) as [gain|e|] eqn:EP; try discriminate. cbn [bind] in E. apply Ok_inj in E.
    destruct (plain_total a l pos pw v gain P K S EP) as (L & T & Q). rewrite VA, (applyRerouting_regular a gain L Rg) in E. subst r.
    destruct (powerNormalisation_loud epsilon gain Heps) as (P1 & k & K0 & EQ & KS); [lra|]. split; [exact P1|]. exists k, gain. repeat split; try assumption.
    rewrite EQ, total_scale, T. reflexivity.
  Qed.
  Lemma gains_distance a l pos pw pos' pw' v k r : placed epsilon a l -> (a_2D a = false \/ planar a l) -> a_regular a = length (a_positions a) ->
    setListenerPosition epsilon a l = Ok v -> v_array v = a -> v_listener v = l -> 0 < k -> seen a l pos' pw' = scale3 k (seen a l pos pw) ->
    3 * (epsilon * epsilon) <= square (seen a l pos pw) -> 3 * (epsilon * epsilon) <= square (seen a l pos' pw') ->
    calculateGains epsilon v pos pw = Ok r -> calculateGains epsilon v pos' pw' = Ok r.
  Proof using Heps.
    intros P K Rg S VA VL K0 SC F F' E. destruct (gains_normalised a l pos pw v r P K Rg S VA F E) as (_ & c & gain & _ & EP & -> & C1 & _).
    pose proof (plain_scale v pos pw pos' pw' k K0) as PS. rewrite VA, VL in PS. specialize (PS SC). rewrite EP in PS.
    unfold calculateGains. rewrite PS. cbn [bind]. destruct (plain_total a l pos' pw' v _ P K S PS) as (L' & _ & Q'). rewrite VA, (applyRerouting_regular a _ L' Rg).
    destruct (powerNormalisation_loud epsilon (map (fun x => k * x) gain) Heps) as (_ & c' & K' & EQ & C2); [lra|]. f_equal. rewrite EQ, map_map. apply map_ext. intros x.
    rewrite power_scale in C2. destruct (plain_total a l pos pw v _ P K S EP) as (_ & _ & Q). assert (PP : 0 < power gain) by nra.
    rewrite sqrt_mult_alt in C2 by nra. rewrite sqrt_square in C2 by lra. assert (SS : 0 < sqrt (power gain)) by now apply sqrt_lt_R0.
    assert (EC : c' * k = c) by (apply (Rmult_eq_reg_r (sqrt (power gain))); [lra|lra]). rewrite <- EC. ring.
  Qed.
End Laws.
