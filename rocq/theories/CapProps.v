(** * C59: compensated amplitude panning matches the source along the axis of the ears *)
From Verif Require Import Base QuaternionModel QuaternionProofs ListenerModel VbapModel VbapSpec VbapProofs VbapProps CapModel CapProofs.
From Coq Require Import Reals Lra.
Local Open Scope R_scope.
Local Open Scope res_scope.

(** ** Specification *)
Definition inner (a b : pos3 R) : R := px a * px b + py a * py b + pz a * pz b.
Definition unit3 (a : pos3 R) : pos3 R := scale3 (/ norm3 a) a.
(** vector from the listener to the source; the source itself if it is a plane wave *)
Definition image (s : cap) (src : xyz) : pos3 R :=
  if x_infinite src then x_pos src
  else P3 (px (x_pos src) - px (c_listener s)) (py (x_pos src) - py (c_listener s)) (pz (x_pos src) - pz (c_listener s)).
(** cosine of the angle between the axis of the ears and each loudspeaker, or the source *)
Definition speaker_cosines (s : cap) : list R := map (fun p => inner (c_axis s) (towards (c_listener s) p)) (c_speakers s).
Definition source_cosine (s : cap) (src : xyz) : R := inner (c_axis s) (unit3 (image s src)).
(** the gain-weighted sum of the loudspeaker directions has the component of the source along the axis *)
Definition matches_axis (s : cap) (src : xyz) (g : list R) : Prop := total2 (speaker_cosines s) g = source_cosine s src * total1 g.

Lemma normalise_unit a : xyz_normalise a = unit3 a.
Proof.
  unfold xyz_normalise, unit3, scale3. fold (getLength a). change (norm3 a) with (getLength a). destruct (Req_EM_T (getLength a) 0) as [Z|Z].
  - assert (S : px a * px a + py a * py a + pz a * pz a = 0) by (apply sqrt_eq_0; [nra|exact Z]).
    assert (px a = 0 /\ py a = 0 /\ pz a = 0) as (X & Y & W) by (repeat split; nra). destruct a as [x y z]. cbn [px py pz] in *. subst. apply P3_eq; ring.
  - apply P3_eq; field; exact Z.
Qed.
Lemma image_eq s src : source_image s src = (norm3 (x_pos src), norm3 (image s src), unit3 (image s src)).
Proof. unfold source_image. rewrite normalise_unit. reflexivity. Qed.
Lemma projections_eq s : projections s = speaker_cosines s.
Proof. unfold projections, speaker_directions, speaker_cosines. rewrite map_map. apply map_ext. intros p. now rewrite normalise_unit. Qed.
Lemma offsets_eq s src : offsets s src = map (fun x => x - source_cosine s src) (speaker_cosines s).
Proof. rewrite offsets_projections, projections_eq, image_eq. reflexivity. Qed.

Lemma source_gains_many s src : (3 <= length (c_speakers s))%nat -> source_gains s src = (g <- energy_gains s src ;; gain_row s g).
Proof.
  intros L. unfold source_gains. assert (E : length (speaker_directions s) = length (c_speakers s)) by (unfold speaker_directions; apply map_length).
  destruct (speaker_directions s) as [|a [|b [|c r]]]; cbn in E; try lia. reflexivity.
Qed.
Lemma source_gains_two s src p0 p1 : c_speakers s = [p0; p1] ->
  source_gains s src = (g <- pair_gains s (towards (c_listener s) p0) (towards (c_listener s) p1) src ;; gain_row s [fst g; snd g]).
Proof. intros E. unfold source_gains, speaker_directions. rewrite E. cbn [map]. rewrite !normalise_unit. reflexivity. Qed.
Lemma calcGains_rows s sources : (forall src, exists row, source_gains s src = Ok row) ->
  exists rows, calcGains s sources = Ok rows /\ Forall2 (fun src row => source_gains s src = Ok row) sources rows.
Proof.
  intros H. induction sources as [|src rest (rows & E & F)]; [exists []; split; [reflexivity|constructor]|].
  destruct (H src) as (row & Er). exists (row :: rows). cbn [calcGains]. rewrite Er. cbn [bind]. rewrite E. cbn [bind]. split; [reflexivity|now constructor].
Qed.

(** Three and more loudspeakers: for every source, the gains match the source along the axis, their
    sum is the level of the source, reduced by one factor for all loudspeakers if a gain would
    exceed the limit, and no other gains with the same sum and the same component along the axis
    have less, or as much, energy.
    Missing for the full claim: loudspeakers that all have the same component along the axis
    (refuted below). *)
Theorem C59_minimum_energy_partial : forall s sources,
  (3 <= length (c_speakers s) <= c_width s)%nat -> (exists x y, In x (speaker_cosines s) /\ In y (speaker_cosines s) /\ x <> y) -> 0 < c_maxGain s ->
  exists rows, calcGains s sources = Ok rows
  /\ Forall2 (fun src row => exists g f,
       row = g ++ repeat 0 (c_width s - length (c_speakers s)) /\ length g = length (c_speakers s)
       /\ matches_axis s src g
       /\ 0 < f <= 1 /\ total1 g = f * (norm3 (x_pos src) / (norm3 (image s src) + 1 / 100))
       /\ (forall x, In x g -> x <= c_maxGain s) /\ (f < 1 -> In (c_maxGain s) g)
       /\ (forall h, length h = length g -> total1 h = total1 g -> matches_axis s src h -> energy g <= energy h /\ (energy h = energy g -> h = g))) sources rows.
Proof.
  intros s sources [L W] D M.
  assert (K : forall src, exists g f, energy_gains s src = Ok g /\ length g = length (c_speakers s) /\ matches_axis s src g
       /\ 0 < f <= 1 /\ total1 g = f * (norm3 (x_pos src) / (norm3 (image s src) + 1 / 100))
       /\ (forall x, In x g -> x <= c_maxGain s) /\ (f < 1 -> In (c_maxGain s) g)
       /\ (forall h, length h = length g -> total1 h = total1 g -> matches_axis s src h -> energy g <= energy h /\ (energy h = energy g -> h = g))).
  { intros src. rewrite <- projections_eq in D. pose proof (energy_gains_spec s src D M) as H. rewrite image_eq in H.
    destruct H as (g & f & al & be & E & EG & T1 & T2 & F & B & _ & A). rewrite <- EG in E.
    assert (LS : length (speaker_cosines s) = length (c_speakers s)) by (unfold speaker_cosines; apply map_length).
    assert (LO : length (offsets s src) = length (c_speakers s)) by (rewrite offsets_eq, map_length; exact LS).
    assert (LG : length g = length (c_speakers s)) by (rewrite EG, map_length; exact LO).
    assert (EG' : map (fun x => x * f) g = map (fun x => al * f + be * f * x) (offsets s src)) by (rewrite EG, map_map; apply map_ext; intros; ring).
    exists (map (fun x => x * f) g), f. rewrite map_length. split; [exact E|]. split; [exact LG|].
    assert (MA : forall h, length h = length (c_speakers s) -> (matches_axis s src h <-> total2 (offsets s src) h = 0)).
    { intros h Lh. unfold matches_axis. rewrite offsets_eq, total2_offset by congruence. split; lra. }
    assert (MG : total2 (offsets s src) (map (fun x => x * f) g) = 0) by (rewrite total2_comm, total2_scale, total2_comm, T2; ring).
    split; [apply MA; [now rewrite map_length|exact MG]|]. split; [exact F|]. split; [rewrite total1_scale, T1; ring|]. split; [exact B|]. split; [exact A|].
    intros h Lh Th Mh. rewrite EG' in *. apply affine_minimal; [congruence|exact Th|]. rewrite MG. apply MA; [congruence|exact Mh]. }
  assert (R : forall src, exists row, source_gains s src = Ok row).
  { intros src. destruct (K src) as (g & f & E & LG & _). rewrite source_gains_many, E by exact L. cbn [bind]. unfold gain_row. rewrite LG.
    destruct (Nat.leb_spec (length (c_speakers s)) (c_width s)); [eauto|lia]. }
  destruct (calcGains_rows s sources R) as (rows & E & F). exists rows. split; [exact E|].
  clear E. induction F as [|src row ss rs Hr F IH]; constructor; [|exact IH].
  destruct (K src) as (g & f & E & LG & H). exists g, f. rewrite source_gains_many, E in Hr by exact L. cbn [bind] in Hr. unfold gain_row in Hr. rewrite LG in Hr.
  destruct (Nat.leb_spec (length (c_speakers s)) (c_width s)); [|lia]. apply Ok_inj in Hr. split; [now symmetry|]. split; [exact LG|exact H].
Qed.

(** Two loudspeakers outside the mode HF: the gains match the source along the axis, respect the
    limit in both directions, and their sum has the level of the source up to the limits.  Its sign
    is that of the difference of the two loudspeakers along the axis. *)
Theorem C59_pair_partial : forall s src p0 p1,
  c_speakers s = [p0; p1] -> (2 <= c_width s)%nat -> c_HFmode s = false -> 0 < c_maxGainPreComp s -> 0 < c_maxGain s ->
  let baseline := inner (c_axis s) (towards (c_listener s) p0) - inner (c_axis s) (towards (c_listener s) p1) in
  let level := norm3 (x_pos src) / Rmax (norm3 (image s src)) (1 / 1000) in
  exists g1 g2, source_gains s src = Ok (g1 :: g2 :: repeat 0 (c_width s - 2))
  /\ matches_axis s src [g1; g2] /\ Rabs g1 <= c_maxGain s /\ Rabs g2 <= c_maxGain s
  /\ Rabs (g1 + g2) <= level /\ 0 <= (g1 + g2) * baseline
  /\ (1 / 1000 <= Rabs baseline ->
      (forall p, In p [p0; p1] -> let offset := Rabs (source_cosine s src - inner (c_axis s) (towards (c_listener s) p)) in
         offset <= c_maxGainPreComp s * Rabs baseline /\ offset * level <= c_maxGain s * Rabs baseline) ->
      Rabs (g1 + g2) = level).
Proof.
  intros s src p0 p1 E W HF P M baseline level. rewrite (source_gains_two s src p0 p1 E).
  pose proof (pair_gains_spec s (towards (c_listener s) p0) (towards (c_listener s) p1) src HF P M) as H. rewrite image_eq in H.
  destruct H as (k & EP & K0 & _ & B1 & B2 & S & Q). 
  set (x := dot (c_axis s) (minus (unit3 (image s src)) (towards (c_listener s) p1))) in *. set (y := dot (c_axis s) (minus (unit3 (image s src)) (towards (c_listener s) p0))) in *. rewrite EP. cbn [bind fst snd].
  unfold gain_row. cbn [length]. destruct (Nat.leb_spec 2 (c_width s)); [|lia].
  set (c0 := inner (c_axis s) (towards (c_listener s) p0)) in *. set (c1 := inner (c_axis s) (towards (c_listener s) p1)) in *.
  assert (EX : x = source_cosine s src - c1) by (unfold x; rewrite dot_minus; reflexivity).
  assert (EY : y = source_cosine s src - c0) by (unfold y; rewrite dot_minus; reflexivity).
  assert (EB : dot (c_axis s) (minus (towards (c_listener s) p0) (towards (c_listener s) p1)) = baseline) by (rewrite dot_minus; reflexivity).
  rewrite EB in *. fold level in S, Q. assert (SUM : x * k + - y * k = k * baseline) by (rewrite EX, EY; unfold baseline; ring).
  exists (x * k), (- y * k). split; [reflexivity|]. split; [|split; [exact B1|split; [exact B2|]]].
  - unfold matches_axis, speaker_cosines. rewrite E. cbn [map total1 total2]. fold c0 c1. rewrite EX, EY. ring.
  - rewrite SUM. split; [rewrite Rabs_mult, (Rabs_pos_eq k) by exact K0; exact S|]. split; [nra|]. intros Big K.
    rewrite Rabs_mult, (Rabs_pos_eq k) by exact K0. apply Q; [exact Big|]. intros g [<-|[<-|[]]].
    + rewrite EX. apply (K p1). right. now left.
    + rewrite EY. apply (K p0). now left.
Qed.

(** Two loudspeakers in the mode HF, the first one further along the axis: for a source between them
    the squared gains match the source along the axis and the power is that of the source, up to the
    limit; sources beyond the loudspeakers are silent.
    Missing for the full claim: pairs in the opposite order (refuted below). *)
Theorem C59_pair_hf_partial : forall s src p0 p1,
  c_speakers s = [p0; p1] -> (2 <= c_width s)%nat -> c_HFmode s = true -> 1 <= c_maxGainPreComp s -> 0 < c_maxGain s ->
  let c0 := inner (c_axis s) (towards (c_listener s) p0) in let c1 := inner (c_axis s) (towards (c_listener s) p1) in
  let x := source_cosine s src in let level := norm3 (x_pos src) / Rmax (norm3 (image s src)) (1 / 1000) in
  1 / 1000 <= c0 - c1 ->
  (c1 < x < c0 -> exists g1 g2, source_gains s src = Ok (g1 :: g2 :: repeat 0 (c_width s - 2))
     /\ 0 <= g1 <= c_maxGain s /\ 0 <= g2 <= c_maxGain s /\ matches_axis s src [g1 * g1; g2 * g2]
     /\ g1 * g1 + g2 * g2 <= level * level /\ (level <= c_maxGain s -> g1 * g1 + g2 * g2 = level * level))
  /\ (x <= c1 \/ c0 <= x -> source_gains s src = Ok (0 :: 0 :: repeat 0 (c_width s - 2))).
Proof.
  intros s src p0 p1 E W HF P M c0 c1 x level B. rewrite (source_gains_two s src p0 p1 E). unfold pair_gains. rewrite image_eq, HF.
  rewrite !dot_minus. change (dot (c_axis s) (unit3 (image s src))) with x. change (dot (c_axis s) (towards (c_listener s) p0)) with c0. change (dot (c_axis s) (towards (c_listener s) p1)) with c1.
  replace (x - c1 + - (x - c0)) with (c0 - c1) by ring. rewrite (Rabs_pos_eq (c0 - c1)) by lra.
  assert (ED : (if Rltb (c0 - c1) (1 / 1000) then 1 / 1000 else c0 - c1) = c0 - c1) by (unfold Rltb; destruct (Rlt_dec _ _); lra). rewrite ED.
  set (d := c0 - c1) in *. set (rI_ := norm3 (image s src)) in *. set (r := if Rltb rI_ (1 / 1000) then 1 / 1000 else rI_).
  assert (ER : r = Rmax rI_ (1 / 1000)). { unfold r, Rltb, Rmax. destruct (Rlt_dec rI_ (1 / 1000)), (Rle_dec rI_ (1 / 1000)); lra. }
  rewrite ER. fold level. assert (LV : 0 <= level).
  { apply Rmult_le_pos; [apply sqrt_pos|]. left. apply Rinv_0_lt_compat. eapply Rlt_le_trans; [|apply Rmax_r]. lra. }
  assert (GR : forall a b, gain_row s [a; b] = Ok (a :: b :: repeat 0 (c_width s - 2))).
  { intros a b. unfold gain_row. cbn [length]. destruct (Nat.leb_spec 2 (c_width s)); [reflexivity|lia]. }
  unfold remap_pair. cbn [fst snd]. set (a := (x - c1) / d). set (b := - (x - c0) / d).
  assert (EA : a * d = x - c1) by (unfold a; field; lra). assert (EB : b * d = c0 - x) by (unfold b; field; lra). split.
  - intros X. assert (A : 0 < a) by nra. assert (B' : 0 < b) by nra. assert (SAB : a + b = 1) by (apply (Rmult_eq_reg_r d); [unfold d in *; lra|lra]).
    replace (Rltb 0 (a * b)) with true by (symmetry; apply Rltb_lt; nra). replace (Rltb a 0) with false by (symmetry; apply Rltb_nlt; lra).
    pose proof (sqrt_def a (Rlt_le _ _ A)) as QA. pose proof (sqrt_def b (Rlt_le _ _ B')) as QB. rewrite QA, QB, SAB, sqrt_1. cbn [bind fst snd].
    pose proof (sqrt_pos a) as PA. pose proof (sqrt_pos b) as PB. set (u := sqrt a) in *. set (w := sqrt b) in *. replace (u * (1 / 1)) with u by field. replace (w * (1 / 1)) with w by field.
    destruct (limit_pair_spec (c_maxGainPreComp s) (u, w)) as (f & F & EF & _ & _ & F1); [lra|]. cbn [fst snd] in *. rewrite EF. rewrite F1 by (rewrite Rabs_pos_eq; nra). cbn [fst snd].
    replace (u * 1 * level) with (u * level) by ring. replace (w * 1 * level) with (w * level) by ring.
    destruct (limit_pair_spec (c_maxGain s) (u * level, w * level) M) as (h & H & EH & HB1 & HB2 & H1). cbn [fst snd] in *. rewrite EH. cbn [fst snd].
    assert (U1 : 0 <= u * level) by nra. assert (W1 : 0 <= w * level) by nra.
    assert (U2 : 0 <= u * level * h) by nra. assert (W2 : 0 <= w * level * h) by nra. rewrite Rabs_pos_eq in HB1, HB2 by assumption.
    exists (u * level * h), (w * level * h). split; [apply GR|]. split; [lra|]. split; [lra|].
    replace (u * level * h * (u * level * h)) with (a * (level * h * (level * h))) by (rewrite <- QA; ring).
    replace (w * level * h * (w * level * h)) with (b * (level * h * (level * h))) by (rewrite <- QB; ring).
    split; [|split].
    + unfold matches_axis, speaker_cosines. rewrite E. cbn [map total1 total2]. fold c0 c1 x. replace b with (1 - a) by lra.
      replace x with (c1 + a * (c0 - c1)) by (unfold d in EA; lra). ring.
    + replace (a * (level * h * (level * h)) + b * (level * h * (level * h))) with (level * level * (h * h)) by (replace b with (1 - a) by lra; ring).
      assert (0 <= h * h <= 1) by nra. assert (0 <= level * level) by nra. nra.
    + intros Lo. rewrite H1 by (rewrite Rabs_pos_eq by assumption; nra). replace b with (1 - a) by lra. ring.
  - intros X. replace (Rltb 0 (a * b)) with false by (symmetry; apply Rltb_nlt; assert (a * b * (d * d) <= 0) by (replace (a * b * (d * d)) with ((a * d) * (b * d)) by ring; rewrite EA, EB; unfold d in B; destruct X; nra); assert (0 < d * d) by nra; nra).
    cbn [bind]. destruct (limit_pair_spec (c_maxGainPreComp s) (0, 0)) as (f & _ & EF & _); [lra|]. cbn [fst snd] in EF. rewrite EF. cbn [fst snd].
    replace (0 * f * level) with 0 by ring. destruct (limit_pair_spec (c_maxGain s) (0, 0) M) as (h & _ & EH & _). cbn [fst snd] in EH. rewrite EH. cbn [fst snd]. rewrite !Rmult_0_l. apply GR.
Qed.

(** ** The axis of the ears *)
Definition rotate_x (t : R) (v : pos3 R) : pos3 R := P3 (px v) (cos t * py v - sin t * pz v) (sin t * py v + cos t * pz v).
Definition rotate_y (t : R) (v : pos3 R) : pos3 R := P3 (cos t * px v + sin t * pz v) (py v) (- sin t * px v + cos t * pz v).
Definition rotate_z (t : R) (v : pos3 R) : pos3 R := P3 (cos t * px v - sin t * py v) (sin t * px v + cos t * py v) (pz v).
(** setListenerOrientation rotates the axis (0, 1, 0) of a listener who looks along the first
    coordinate by the roll, pitch (both with the sign of the tracker) and yaw; it has unit length *)
Theorem C59_axis : forall s yaw pitch roll,
  c_axis (setListenerOrientation s yaw pitch roll) = rotate_z yaw (rotate_y (- pitch) (rotate_x (- roll) (P3 0 1 0)))
  /\ norm3 (c_axis (setListenerOrientation s yaw pitch roll)) = 1.
Proof.
  intros s y p r. cbn [setListenerOrientation c_axis]. split.
  - unfold rotate_z, rotate_y, rotate_x. cbn [px py pz]. rewrite !cos_neg, !sin_neg. apply P3_eq; ring.
  - unfold norm3. cbn [px py pz]. rewrite <- sqrt_1. f_equal.
    pose proof (sin2_cos2 y) as Y. pose proof (sin2_cos2 p) as P. pose proof (sin2_cos2 r) as Q. unfold Rsqr in *.
    replace (cos y * cos y) with (1 - sin y * sin y) in * by lra.
    replace ((cos y * sin p * sin r - sin y * cos r) * (cos y * sin p * sin r - sin y * cos r) + (sin y * sin p * sin r + cos y * cos r) * (sin y * sin p * sin r + cos y * cos r) + - cos p * sin r * (- cos p * sin r))
      with ((cos y * cos y + sin y * sin y) * (sin p * sin p * (sin r * sin r) + cos r * cos r) + cos p * cos p * (sin r * sin r)) by ring.
    replace (cos y * cos y + sin y * sin y) with 1 by (pose proof (sin2_cos2 y) as Y'; unfold Rsqr in Y'; lra).
    replace (cos p * cos p) with (1 - sin p * sin p) by lra. replace (cos r * cos r) with (1 - sin r * sin r) by lra. ring.
Qed.

(** ** Concrete cases *)
Definition ears : pos3 R := P3 0 1 0.
Definition cap_of (speakers : list (pos3 R)) (hf : bool) : cap := Cap speakers (length speakers) origin ears (3 / 2) 10 hf.
Lemma towards_unit_vector u : px u * px u + py u * py u + pz u * pz u = 1 -> towards origin u = u.
Proof.
  intros E. apply (towards_is origin u 1 u); [lra| |].
  - unfold VbapLaws.square. cbn [px py pz origin]. lra.
  - unfold scale3. cbn [px py pz origin]. apply P3_eq; ring.
Qed.
Lemma norm3_unit u : px u * px u + py u * py u + pz u * pz u = 1 -> norm3 u = 1.
Proof. intros E. unfold norm3. rewrite E. apply sqrt_1. Qed.
Lemma unit3_unit u : px u * px u + py u * py u + pz u * pz u = 1 -> unit3 u = u.
Proof. intros E. unfold unit3. rewrite norm3_unit by exact E. destruct u. unfold scale3. cbn. apply P3_eq; field. Qed.
Lemma image_unit speakers hf u : px u * px u + py u * py u + pz u * pz u = 1 -> source_image (cap_of speakers hf) (XYZ u false) = (1, 1, u).
Proof.
  intros E. rewrite image_eq. cbn [x_pos x_infinite]. unfold image. cbn [x_pos x_infinite cap_of c_listener origin px py pz].
  replace (P3 (px u - 0) (py u - 0) (pz u - 0)) with u by (destruct u; cbn; apply P3_eq; ring). now rewrite norm3_unit, unit3_unit by exact E.
Qed.
Lemma directions_unit speakers hf : (forall u, In u speakers -> px u * px u + py u * py u + pz u * pz u = 1) -> speaker_directions (cap_of speakers hf) = speakers.
Proof.
  intros H. unfold speaker_directions. cbn [cap_of c_speakers c_listener]. rewrite <- (map_id speakers) at 2. apply map_ext_in. intros u Hu.
  rewrite normalise_unit. change (towards origin u = u). now apply towards_unit_vector, H.
Qed.
Ltac units := intros ? Hu; cbn [In] in Hu; repeat (destruct Hu as [<-|Hu]; [cbn [px py pz]; lra|]); destruct Hu.

Lemma energy_case a b c d g speakers u : map (fun r => dot ears (minus r u)) speakers = a -> sum a = b -> sum (map (fun x => x * x) a) = c ->
  c * INR (length speakers) - b * b = d -> 0 < d -> map (fun x => (- b * x + c) / (d * (1 + 1 / 100) / 1)) a = g ->
  px u * px u + py u * py u + pz u * pz u = 1 -> (forall u, In u speakers -> px u * px u + py u * py u + pz u * pz u = 1) ->
  energy_gains (cap_of speakers false) (XYZ u false)
  = Ok (if Rltb 10 (fold_left (fun m x => if Rltb m x then x else m) g 0)
        then map (fun x => x * (10 / fold_left (fun m x => if Rltb m x then x else m) g 0)) g else g).
Proof.
  intros A B C D P G U S. unfold energy_gains. rewrite image_unit by exact U. rewrite directions_unit by exact S. cbn [cap_of c_axis c_maxGain]. rewrite A, B, C, D.
  destruct (Req_EM_T _ 0) as [Z|_]; [exfalso; lra|]. destruct (Req_EM_T 1 0) as [Z|_]; [exfalso; lra|]. now rewrite G.
Qed.
(** Three loudspeakers at the ears and in front: a source between the front and the left *)
Definition front_and_sides : list (pos3 R) := [P3 0 1 0; P3 0 (-1) 0; P3 1 0 0].
Example front_and_sides_gains : calcGains (cap_of front_and_sides false) [XYZ (P3 (3/5) (4/5) 0) false] = Ok [[440/606; -40/606; 200/606]].
Proof.
  unfold calcGains. rewrite source_gains_many by (cbn; lia). 
  rewrite (energy_case [1/5; -9/5; -4/5] (-12/5) (98/25) 6 [440/606; -40/606; 200/606]); [|unfold sum, dot, minus; cbn; repeat apply cons_eq; try reflexivity; lra|unfold sum; cbn; lra..|repeat apply cons_eq; try reflexivity; lra|cbn [px py pz]; lra|units].
  cbn [fold_left c_maxGain cap_of]. dec. reflexivity.
Qed.
Example front_and_sides_spread : exists x y, In x (speaker_cosines (cap_of front_and_sides false)) /\ In y (speaker_cosines (cap_of front_and_sides false)) /\ x <> y.
Proof.
  rewrite <- projections_eq. unfold projections. rewrite directions_unit by units. unfold front_and_sides, dot. cbn [map cap_of c_axis ears px py pz].
  exists (0 * 0 + 1 * 1 + 0 * 0), (0 * 0 + 1 * -1 + 0 * 0). split; [now left|]. split; [right; now left|lra].
Qed.

(** Two loudspeakers in the mode HF: a source in front has equal gains of power 1/2 *)
Example pair_hf_case : let s := cap_of [P3 (4/5) (3/5) 0; P3 (4/5) (-3/5) 0] true in
  c_HFmode s = true /\ 1 <= c_maxGainPreComp s /\ inner (c_axis s) (towards (c_listener s) (P3 (4/5) (3/5) 0)) = 3/5
  /\ inner (c_axis s) (towards (c_listener s) (P3 (4/5) (-3/5) 0)) = -3/5 /\ source_cosine s (XYZ (P3 1 0 0) false) = 0.
Proof.
  cbn [cap_of c_HFmode c_maxGainPreComp c_axis c_listener]. split; [reflexivity|]. split; [lra|]. rewrite !towards_unit_vector by (cbn [px py pz]; lra).
  split; [unfold inner, ears; cbn [px py pz]; lra|]. split; [unfold inner, ears; cbn [px py pz]; lra|].
  unfold source_cosine, image. cbn [x_infinite x_pos cap_of c_listener c_axis origin px py pz]. replace (P3 (1 - 0) (0 - 0) (0 - 0)) with (P3 1 0 0) by (apply P3_eq; ring).
  rewrite unit3_unit by (cbn [px py pz]; lra). unfold inner, ears. cbn [px py pz]. lra.
Qed.

(** ** What does not hold *)
(** Only positive gains are limited: a gain of -19.8 with a limit of 10 *)
Definition crowded : list (pos3 R) := [P3 (20/29) (21/29) 0; P3 (21/29) (20/29) 0; P3 (-21/29) (20/29) 0; P3 0 (20/29) (21/29)].
Theorem C59_negative_limit_refuted : exists g rest, calcGains (cap_of crowded false) [XYZ (P3 1 0 0) false] = Ok [g :: rest]
  /\ c_maxGain (cap_of crowded false) = 10 /\ g < - 19.
Proof.
  exists (-2000/101), [700/101; 700/101; 700/101]. split; [|split; [reflexivity|lra]].
  unfold calcGains. rewrite source_gains_many by (cbn; lia). 
  rewrite (energy_case [21/29; 20/29; 20/29; 20/29] (81/29) (1641/841) (3/841) [-2000/101; 700/101; 700/101; 700/101]); [|unfold sum, dot, minus; cbn; repeat apply cons_eq; try reflexivity; lra|unfold sum; cbn; lra..|repeat apply cons_eq; try reflexivity; lra|cbn [px py pz]; lra|units].
  cbn [fold_left c_maxGain cap_of]. dec. reflexivity.
Qed.

(** With two loudspeakers the polarity depends on the order in which they are listed *)
Definition right_left : list (pos3 R) := [P3 (4/5) (-3/5) 0; P3 (4/5) (3/5) 0].
Theorem C59_pair_polarity_refuted :
  calcGains (cap_of right_left false) [XYZ (P3 1 0 0) false] = Ok [[-1/2; -1/2]]
  /\ calcGains (cap_of (rev right_left) false) [XYZ (P3 1 0 0) false] = Ok [[1/2; 1/2]].
Proof.
  assert (A1 : Rabs (-6/5) = 6/5) by (rewrite <- Rabs_Ropp, Rabs_pos_eq; lra). assert (A2 : Rabs (6/5) = 6/5) by (rewrite Rabs_pos_eq; lra).
  assert (B1 : Rabs (-1/2) = 1/2) by (rewrite <- Rabs_Ropp, Rabs_pos_eq; lra). assert (B2 : Rabs (1/2) = 1/2) by (rewrite Rabs_pos_eq; lra).
  assert (L1 : forall m, 1 <= m -> limit_pair m (-1/2, -1/2) = (-1/2, -1/2)) by (intros m Hm; unfold limit_pair; cbn [fst snd]; rewrite B1; dec; reflexivity).
  assert (L2 : forall m, 1 <= m -> limit_pair m (1/2, 1/2) = (1/2, 1/2)) by (intros m Hm; unfold limit_pair; cbn [fst snd]; rewrite B2; dec; reflexivity).
  split; unfold calcGains, source_gains; rewrite directions_unit by units; cbn [right_left rev app]; unfold pair_gains; rewrite image_unit by (cbn [px py pz]; lra); unfold dot, minus;
    cbn [cap_of c_axis ears px py pz c_HFmode remap_pair c_maxGainPreComp c_maxGain].
  - replace (0 * (1 - 4/5) + 1 * (0 - 3/5) + 0 * (0 - 0) + - (0 * (1 - 4/5) + 1 * (0 - -3/5) + 0 * (0 - 0))) with (-6/5) by field. rewrite A1. dec.
    replace ((0 * (1 - 4/5) + 1 * (0 - 3/5) + 0 * (0 - 0)) / (6/5)) with (-1/2) by field.
    replace (- (0 * (1 - 4/5) + 1 * (0 - -3/5) + 0 * (0 - 0)) / (6/5)) with (-1/2) by field. cbn [bind]. rewrite L1 by lra. cbn [fst snd].
    replace (-1/2 * (1/1)) with (-1/2) by field. rewrite L1 by lra. reflexivity.
  - replace (0 * (1 - 4/5) + 1 * (0 - -3/5) + 0 * (0 - 0) + - (0 * (1 - 4/5) + 1 * (0 - 3/5) + 0 * (0 - 0))) with (6/5) by field. rewrite A2. dec.
    replace ((0 * (1 - 4/5) + 1 * (0 - -3/5) + 0 * (0 - 0)) / (6/5)) with (1/2) by field.
    replace (- (0 * (1 - 4/5) + 1 * (0 - 3/5) + 0 * (0 - 0)) / (6/5)) with (1/2) by field. cbn [bind]. rewrite L2 by lra. cbn [fst snd].
    replace (1/2 * (1/1)) with (1/2) by field. rewrite L2 by lra. reflexivity.
Qed.
(** ... and in the mode HF the negative pair has no square roots *)
Theorem C59_pair_hf_refuted : calcGains (cap_of right_left true) [XYZ (P3 1 0 0) false] = UB.
Proof.
  assert (A1 : Rabs (-6/5) = 6/5) by (rewrite <- Rabs_Ropp, Rabs_pos_eq; lra).
  unfold calcGains, source_gains. rewrite directions_unit by units. cbn [right_left]. unfold pair_gains. rewrite image_unit by (cbn [px py pz]; lra). unfold dot, minus.
  cbn [cap_of c_axis ears px py pz c_HFmode c_maxGainPreComp c_maxGain].
  replace (0 * (1 - 4/5) + 1 * (0 - 3/5) + 0 * (0 - 0) + - (0 * (1 - 4/5) + 1 * (0 - -3/5) + 0 * (0 - 0))) with (-6/5) by field. rewrite A1. dec.
  replace ((0 * (1 - 4/5) + 1 * (0 - 3/5) + 0 * (0 - 0)) / (6/5)) with (-1/2) by field.
  replace (- (0 * (1 - 4/5) + 1 * (0 - -3/5) + 0 * (0 - 0)) / (6/5)) with (-1/2) by field. unfold remap_pair. cbn [fst snd]. dec. reflexivity.
Qed.
(** Loudspeakers with the same component along the axis: zero divided by zero *)
Definition median : list (pos3 R) := [P3 1 0 0; P3 0 0 1; P3 (-1) 0 0].
Theorem C59_median_refuted : calcGains (cap_of median false) [XYZ (P3 1 0 0) false] = UB.
Proof.
  unfold calcGains. rewrite source_gains_many by (cbn; lia). unfold energy_gains. rewrite image_unit by (cbn [px py pz]; lra). rewrite directions_unit by units.
  unfold median, sum, dot, minus. cbn [map length INR fold_left cap_of c_axis ears px py pz]. destruct (Req_EM_T _ 0) as [Z|Z]; [reflexivity|exfalso; apply Z; ring].
Qed.

Print Assumptions C59_minimum_energy_partial.
Print Assumptions C59_pair_partial.
Print Assumptions C59_pair_hf_partial.
Print Assumptions C59_axis.
Print Assumptions C59_negative_limit_refuted.
Print Assumptions C59_pair_polarity_refuted.
Print Assumptions C59_pair_hf_refuted.
Print Assumptions C59_median_refuted.
