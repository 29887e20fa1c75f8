(** Lemmas about compensated amplitude panning. *)
From Verif Require Import Base QuaternionModel QuaternionProofs ListenerModel CapModel.
From Coq Require Import Reals Lra.
Local Open Scope R_scope.
Local Open Scope res_scope.

(** *** Specification vocabulary *)
(** sum of a list and of products of two lists *)
Fixpoint total1 (l : list R) : R := match l with [] => 0 | x :: l' => x + total1 l' end.
Fixpoint total2 (l l' : list R) : R := match l, l' with x :: m, y :: m' => x * y + total2 m m' | _, _ => 0 end.
Definition energy (l : list R) : R := total2 l l.

Lemma sum_eq l : sum l = total1 l.
Proof.
  unfold sum. assert (E : forall l a, fold_left (fun acc x => acc + x) l a = a + total1 l).
  { induction l0 as [|x l0 IH]; intros a; cbn [fold_left total1]; [ring|]. rewrite IH. ring. }
  rewrite E. ring.
Qed.
Lemma total1_map_affine (al be : R) a : total1 (map (fun x => al + be * x) a) = al * INR (length a) + be * total1 a.
Proof. induction a as [|x a IH]; [cbn; ring|]. cbn [map total1 length]. rewrite IH, S_INR. ring. Qed.
Lemma total2_affine (al be : R) a : forall e, length e = length a -> total2 (map (fun x => al + be * x) a) e = al * total1 e + be * total2 a e.
Proof. induction a as [|x a IH]; intros [|y e] H; try discriminate; cbn [map total1 total2]; [ring|]. rewrite IH by (cbn in H; lia). ring. Qed.
Lemma total2_comm a : forall b, total2 a b = total2 b a.
Proof. induction a as [|x a IH]; intros [|y b]; cbn [total2]; try reflexivity. rewrite IH. ring. Qed.
Lemma total1_scale k a : total1 (map (fun x => x * k) a) = total1 a * k.
Proof. induction a as [|x a IH]; cbn [map total1]; [ring|]. rewrite IH. ring. Qed.
Lemma total2_scale k a : forall b, total2 (map (fun x => x * k) a) b = total2 a b * k.
Proof. induction a as [|x a IH]; intros [|y b]; cbn [map total2]; try ring. rewrite IH. ring. Qed.
Lemma energy_nonneg a : 0 <= energy a.
Proof. unfold energy. induction a as [|x a IH]; cbn [total2]; [lra|]. nra. Qed.
Lemma energy_zero a : energy a = 0 -> forall x, In x a -> x = 0.
Proof.
  unfold energy. induction a as [|x a IH]; cbn [total2]; [intros _ x []|]. intros H y [<-|Hy].
  - pose proof (energy_nonneg a) as P. unfold energy in P. nra.
  - apply IH; [|exact Hy]. pose proof (energy_nonneg a) as P. unfold energy in P. nra.
Qed.

(** *** Minimum energy *)
Fixpoint diff (h g : list R) : list R := match h, g with x :: h', y :: g' => (x - y) :: diff h' g' | _, _ => [] end.
Lemma diff_length h : forall g, length h = length g -> length (diff h g) = length g.
Proof. induction h; intros [|y g] H; try discriminate; cbn; [reflexivity|]. rewrite IHh; cbn in H; lia. Qed.
Lemma diff_total1 h : forall g, length h = length g -> total1 (diff h g) = total1 h - total1 g.
Proof. induction h; intros [|y g] H; try discriminate; cbn [diff total1]; [ring|]. rewrite IHh by (cbn in H; lia). ring. Qed.
Lemma diff_total2 a : forall h g, length h = length g -> total2 a (diff h g) = total2 a h - total2 a g.
Proof. induction a; intros [|x h] [|y g] H; try discriminate; cbn [diff total2]; try ring. rewrite IHa by (cbn in H; lia). ring. Qed.
Lemma diff_energy h : forall g, length h = length g -> energy h = energy g + 2 * total2 g (diff h g) + energy (diff h g).
Proof.
  unfold energy. induction h as [|x h IH]; intros [|y g] H; try discriminate; cbn [diff total2]; [ring|].
  rewrite (IH g) by (cbn in H; lia). ring.
Qed.
Lemma diff_zero h : forall g, length h = length g -> (forall x, In x (diff h g) -> x = 0) -> h = g.
Proof.
  induction h as [|x h IH]; intros [|y g] H Z; try discriminate; [reflexivity|]. cbn [diff] in Z. f_equal.
  - pose proof (Z _ (or_introl eq_refl)). lra.
  - apply IH; [cbn in H; lia|]. intros z Hz. apply Z. now right.
Qed.
(** gains that are an affine function of [a] have the smallest energy among those with the same
    sums, and no others do *)
Lemma affine_minimal al be a h : let g := map (fun x => al + be * x) a in
  length h = length a -> total1 h = total1 g -> total2 a h = total2 a g -> energy g <= energy h /\ (energy h = energy g -> h = g).
Proof.
  intros g L T1 T2. assert (LG : length h = length g) by (unfold g; now rewrite map_length).
  assert (X : total2 g (diff h g) = 0).
  { unfold g at 1. rewrite total2_affine by (rewrite diff_length by exact LG; unfold g; apply map_length).
    rewrite diff_total1, diff_total2 by exact LG. rewrite T1, T2. ring. }
  pose proof (diff_energy h g LG) as E. rewrite X in E. pose proof (energy_nonneg (diff h g)) as N. split; [lra|].
  intros EE. apply diff_zero; [exact LG|]. apply energy_zero. lra.
Qed.

(** *** Variance: the denominator *)
Lemma total2_nth_const a x : (forall y, In y a -> y = x) -> total1 a = INR (length a) * x.
Proof. induction a as [|y a IH]; intros H; [cbn; ring|]. cbn [total1 length]. rewrite S_INR, IH by (intros; apply H; now right). rewrite (H y) by now left. ring. Qed.
Lemma variance_eq a : INR (length a) * (energy a * INR (length a) - total1 a * total1 a) = energy (map (fun x => - total1 a + INR (length a) * x) a).
Proof.
  unfold energy. rewrite total2_affine by now rewrite map_length. rewrite total1_map_affine. rewrite (total2_comm a (map _ a)), total2_affine by reflexivity. ring.
Qed.
Lemma variance_pos a : (exists x y, In x a /\ In y a /\ x <> y) -> 0 < energy a * INR (length a) - total1 a * total1 a.
Proof.
  intros (x & y & X & Y & N). assert (L : 0 < INR (length a)). { apply lt_0_INR. destruct a; [destruct X|cbn; lia]. }
  pose proof (variance_eq a) as E. pose proof (energy_nonneg (map (fun x => - total1 a + INR (length a) * x) a)) as P.
  destruct (Rle_lt_or_eq_dec _ _ P) as [Q|Q]; [nra|]. exfalso. apply N. symmetry in Q.
  assert (Z : forall z, In z a -> - total1 a + INR (length a) * z = 0). { intros z Hz. apply (energy_zero _ Q). now apply (in_map (fun x => - total1 a + INR (length a) * x)). }
  pose proof (Z x X). pose proof (Z y Y). apply (Rmult_eq_reg_l (INR (length a))); lra.
Qed.

(** *** Largest gain *)
Definition largest (g : list R) : R := fold_left (fun m x => if Rltb m x then x else m) g 0.
Lemma largest_spec g : 0 <= largest g /\ (forall x, In x g -> x <= largest g) /\ (largest g = 0 \/ In (largest g) g).
Proof.
  unfold largest. assert (E : forall g a, let m := fold_left (fun m x => if Rltb m x then x else m) g a in a <= m /\ (forall x, In x g -> x <= m) /\ (m = a \/ In m g)).
  { induction g0 as [|x g0 IH]; intros a; cbn [fold_left]; [repeat split; [lra|intros ? []|now left]|].
    destruct (IH (if Rltb a x then x else a)) as (A & B & C). unfold Rltb in *. destruct (Rlt_dec a x) as [L|L].
    - repeat split; [lra|intros y [<-|Hy]; [exact A|now apply B]|]. destruct C as [C|C]; [right; left; congruence|right; now right].
    - repeat split; [exact A|intros y [<-|Hy]; [lra|now apply B]|]. destruct C as [C|C]; [now left|right; now right]. }
  apply E.
Qed.

(** *** Three and more loudspeakers *)
Definition projections (s : cap) : list R := map (dot (c_axis s)) (speaker_directions s).
Definition offsets (s : cap) (src : xyz) : list R :=
  map (fun ri => dot (c_axis s) (minus ri (snd (source_image s src)))) (speaker_directions s).
Lemma dot_minus a b c : dot a (minus b c) = dot a b - dot a c.
Proof. unfold dot, minus. cbn [px py pz]. ring. Qed.
Lemma offsets_projections s src : offsets s src = map (fun x => x - dot (c_axis s) (snd (source_image s src))) (projections s).
Proof. unfold offsets, projections. rewrite map_map. apply map_ext. intros. apply dot_minus. Qed.
Lemma total2_offset k l : forall g, length g = length l -> total2 (map (fun x => x - k) l) g = total2 l g - k * total1 g.
Proof. induction l as [|x l IH]; intros [|y g] H; try discriminate; cbn [map total1 total2]; [ring|]. rewrite IH by (cbn in H; lia). ring. Qed.
Lemma getLength_nonneg a : 0 <= getLength a. Proof. apply sqrt_pos. Qed.

Lemma energy_gains_spec s src : (exists x y, In x (projections s) /\ In y (projections s) /\ x <> y) -> 0 < c_maxGain s ->
  let '(rI0, rI_, rI) := source_image s src in
  exists g f al be, energy_gains s src = Ok (map (fun x => x * f) (map (fun x => al + be * x) (offsets s src)))
    /\ g = map (fun x => al + be * x) (offsets s src)
    /\ total1 g = rI0 / (rI_ + 1 / 100) /\ total2 (offsets s src) g = 0
    /\ 0 < f <= 1 /\ (forall x, In x (map (fun x => x * f) g) -> x <= c_maxGain s)
    /\ ((forall x, In x g -> x <= c_maxGain s) -> f = 1)
    /\ (f < 1 -> In (c_maxGain s) (map (fun x => x * f) g)).
Proof.
  intros (x & y & X & Y & N) M. unfold energy_gains. pose proof (offsets_projections s src) as EO. destruct (source_image s src) as [[rI0 rI_] rI] eqn:ES.
  cbn [snd] in EO. assert (RI : 0 <= rI0 /\ 0 <= rI_).
  { unfold source_image in ES. injection ES as <- <- _. split; apply getLength_nonneg. }
  assert (OF : offsets s src = map (fun ri => dot (c_axis s) (minus ri rI)) (speaker_directions s)) by (unfold offsets; now rewrite ES).
  rewrite <- OF. set (a := offsets s src) in *.
  assert (LA : length a = length (speaker_directions s)) by (rewrite OF; apply map_length). rewrite <- LA.
  assert (V : 0 < energy a * INR (length a) - total1 a * total1 a).
  { apply variance_pos. exists (x - dot (c_axis s) rI), (y - dot (c_axis s) rI). rewrite EO.
    split; [now apply (in_map (fun z => z - dot (c_axis s) rI))|]. split; [now apply (in_map (fun z => z - dot (c_axis s) rI))|lra]. }
  rewrite !sum_eq. assert (EC : total1 (map (fun x => x * x) a) = energy a).
  { unfold energy. clear. induction a as [|z a IH]; cbn [map total1 total2]; [reflexivity|]. now rewrite IH. }
  rewrite EC. set (b := total1 a) in *. set (c := energy a) in *. set (n := INR (length a)) in *.
  set (num := (c * n - b * b) * (rI_ + 1 / 100)). assert (NP : 0 < num) by (unfold num; apply Rmult_lt_0_compat; lra).
  destruct (Req_EM_T num 0) as [Z|_]; [lra|].
  set (al := c * rI0 / num). set (be := - b * rI0 / num).
  assert (EG : (if Req_EM_T rI0 0 then map (fun _ => 0) a else map (fun x => (- b * x + c) / (num / rI0)) a) = map (fun x => al + be * x) a).
  { destruct (Req_EM_T rI0 0) as [Z|Z]; apply map_ext; intros z; unfold al, be; [rewrite Z|]; field; lra. }
  rewrite EG. set (g := map (fun x => al + be * x) a). fold (largest g). destruct (largest_spec g) as (L0 & LB & LI).
  assert (T1 : total1 g = rI0 / (rI_ + 1 / 100)).
  { unfold g. rewrite total1_map_affine. fold n b. unfold al, be, num. field. split; lra. }
  assert (T2 : total2 a g = 0).
  { rewrite total2_comm. unfold g. rewrite total2_affine by reflexivity. fold b. change (total2 a a) with c. unfold al, be. field. lra. }
  destruct (Rltb (c_maxGain s) (largest g)) eqn:EL; unfold Rltb in EL; destruct (Rlt_dec (c_maxGain s) (largest g)) as [L|L]; try discriminate EL.
  - exists g, (c_maxGain s / largest g), al, be. split; [reflexivity|]. split; [reflexivity|]. split; [exact T1|]. split; [exact T2|].
    assert (F : 0 < c_maxGain s / largest g <= 1). { split; [apply Rdiv_lt_0_compat; lra|]. apply (Rmult_le_reg_r (largest g)); [lra|]. field_simplify; lra. }
    split; [exact F|]. split; [|split].
    + intros z Hz. apply in_map_iff in Hz as (w & <- & Hw). specialize (LB w Hw).
      apply (Rmult_le_reg_r (largest g)); [lra|]. replace (w * (c_maxGain s / largest g) * largest g) with (w * c_maxGain s) by (field; lra). nra.
    + intros A. destruct LI as [LI|LI]; [lra|]. specialize (A _ LI). lra.
    + intros _. destruct LI as [LI|LI]; [lra|]. apply in_map_iff. exists (largest g). split; [field; lra|exact LI].
  - exists g, 1, al, be. fold g. rewrite (map_ext (fun x => x * 1) (fun x => x)) by (intros; ring). rewrite !map_id. repeat split; try assumption; try lra.
    + intros z Hz. specialize (LB z Hz). lra.
Qed.

(** *** Two loudspeakers *)
Lemma limit_pair_spec limit g : 0 < limit -> exists f, 0 < f <= 1 /\ limit_pair limit g = (fst g * f, snd g * f)
  /\ Rabs (fst g * f) <= limit /\ Rabs (snd g * f) <= limit /\ (Rabs (fst g) <= limit -> Rabs (snd g) <= limit -> f = 1).
Proof.
  intros L. unfold limit_pair. set (m := if Rltb (Rabs (fst g)) (Rabs (snd g)) then Rabs (snd g) else Rabs (fst g)). assert (M : Rabs (fst g) <= m /\ Rabs (snd g) <= m /\ (m = Rabs (fst g) \/ m = Rabs (snd g))).
  { unfold m, Rltb. destruct (Rlt_dec _ _); repeat split; try lra; tauto. }
  destruct M as (M1 & M2 & M3). unfold Rltb. destruct (Rlt_dec limit m) as [H|H].
  - assert (F : 0 < limit / m) by (apply Rdiv_lt_0_compat; lra). assert (F1 : limit / m * m = limit) by (field; lra).
    exists (limit / m). split; [split; [exact F|nra]|]. split; [reflexivity|]. rewrite !Rabs_mult, (Rabs_pos_eq (limit / m)) by lra.
    split; [nra|]. split; [nra|]. intros A B. exfalso. destruct M3; lra.
  - exists 1. rewrite !Rmult_1_r. split; [lra|]. split; [now destruct g|]. repeat split; lra.
Qed.
Lemma pair_gains_spec s r0 r1 src : c_HFmode s = false -> 0 < c_maxGainPreComp s -> 0 < c_maxGain s ->
  let '(rI0, rI_, rI) := source_image s src in
  exists k, pair_gains s r0 r1 src = Ok (dot (c_axis s) (minus rI r1) * k, - dot (c_axis s) (minus rI r0) * k)
    /\ 0 <= k /\ (0 < rI0 -> 0 < k)
    /\ Rabs (dot (c_axis s) (minus rI r1) * k) <= c_maxGain s /\ Rabs (- dot (c_axis s) (minus rI r0) * k) <= c_maxGain s
    /\ k * Rabs (dot (c_axis s) (minus r0 r1)) <= rI0 / Rmax rI_ (1 / 1000)
    /\ (1 / 1000 <= Rabs (dot (c_axis s) (minus r0 r1)) ->
        let level := rI0 / Rmax rI_ (1 / 1000) in
        (forall g, In g [dot (c_axis s) (minus rI r1); dot (c_axis s) (minus rI r0)] ->
           Rabs g <= c_maxGainPreComp s * Rabs (dot (c_axis s) (minus r0 r1))
           /\ Rabs g * level <= c_maxGain s * Rabs (dot (c_axis s) (minus r0 r1)))
        -> k * Rabs (dot (c_axis s) (minus r0 r1)) = level).
Proof.
  intros HF P M. unfold pair_gains. destruct (source_image s src) as [[rI0 rI_] rI] eqn:ES. rewrite HF. cbn [remap_pair bind].
  assert (RI : 0 <= rI0 /\ 0 <= rI_). { unfold source_image in ES. injection ES as <- <- _. split; apply getLength_nonneg. }
  set (x := dot (c_axis s) (minus rI r1)). set (y := dot (c_axis s) (minus rI r0)).
  assert (EB : x + - y = dot (c_axis s) (minus r0 r1)) by (unfold x, y; rewrite !dot_minus; ring). rewrite EB. set (B := Rabs (dot (c_axis s) (minus r0 r1))).
  set (d := if Rltb B (1 / 1000) then 1 / 1000 else B). assert (D : 0 < d /\ B <= d /\ (1 / 1000 <= B -> d = B)).
  { unfold d, Rltb. destruct (Rlt_dec B (1 / 1000)); repeat split; lra. }
  set (r := if Rltb rI_ (1 / 1000) then 1 / 1000 else rI_). assert (ER : r = Rmax rI_ (1 / 1000)).
  { unfold r, Rltb, Rmax. destruct (Rlt_dec rI_ (1 / 1000)), (Rle_dec rI_ (1 / 1000)); lra. }
  assert (RP : 0 < r) by (rewrite ER; eapply Rlt_le_trans; [|apply Rmax_r]; lra). rewrite <- ER. set (c := rI0 / r).
  assert (C0 : 0 <= c) by (apply Rmult_le_pos; [lra|left; now apply Rinv_0_lt_compat]).
  assert (C1 : 0 < rI0 -> 0 < c) by (intros; now apply Rdiv_lt_0_compat).
  destruct (limit_pair_spec (c_maxGainPreComp s) (x / d, - y / d) P) as (f & F & EF & _ & _ & F1). cbn [fst snd] in *. rewrite EF. cbn [fst snd].
  destruct (limit_pair_spec (c_maxGain s) (x / d * f * c, - y / d * f * c) M) as (h & H & EH & HB1 & HB2 & H1). cbn [fst snd] in *. rewrite EH.
  assert (ID : 0 < / d) by (apply Rinv_0_lt_compat; lra).
  exists (f * c * h / d). unfold Rdiv in *.
  split; [f_equal; f_equal; ring|]. split; [apply Rmult_le_pos; [apply Rmult_le_pos; [apply Rmult_le_pos|]|]; lra|].
  split; [intros Q; apply C1 in Q; apply Rmult_lt_0_compat; [apply Rmult_lt_0_compat; [apply Rmult_lt_0_compat|]|]; lra|].
  replace (x * (f * c * h * / d)) with (x * / d * f * c * h) by ring. replace (- y * (f * c * h * / d)) with (- y * / d * f * c * h) by ring.
  split; [exact HB1|]. split; [exact HB2|]. assert (BD : B * / d <= 1) by (apply (Rmult_le_reg_r d); [lra|]; rewrite Rmult_assoc, Rinv_l by lra; lra).
  assert (B0 : 0 <= B) by apply Rabs_pos. split.
  - replace (f * c * h * / d * B) with (c * (f * h * (B * / d))) by ring. rewrite <- (Rmult_1_r c) at 2. apply Rmult_le_compat_l; [exact C0|].
    assert (0 <= B * / d) by nra. assert (f * h <= 1) by nra. assert (0 <= f * h) by nra. nra.
  - intros HBig K. destruct D as (_ & _ & D). specialize (D HBig). rewrite D in *.
    assert (A : forall g, In g [x; y] -> Rabs (g * / B) <= c_maxGainPreComp s /\ Rabs (g * / B * c) <= c_maxGain s).
    { intros g Hg. destruct (K g Hg) as [K1 K2]. rewrite !Rabs_mult, (Rabs_pos_eq (/ B)), (Rabs_pos_eq c) by lra. split.
      - apply (Rmult_le_reg_r B); [lra|]. rewrite Rmult_assoc, Rinv_l by lra. lra.
      - apply (Rmult_le_reg_r B); [lra|]. replace (Rabs g * / B * c * B) with (Rabs g * c * (/ B * B)) by ring. rewrite Rinv_l by lra. fold B in K2. lra. }
    destruct (A x) as [A1 A2]; [now left|]. destruct (A y) as [A3 A4]; [right; now left|].
    replace (- y * / B) with (- (y * / B)) in * by ring. rewrite Rabs_Ropp in F1. rewrite (F1 A1 A3) in *.
    replace (x * / B * 1 * c) with (x * / B * c) in H1 by ring. replace (- (y * / B) * 1 * c) with (- (y * / B * c)) in H1 by ring. rewrite Rabs_Ropp in H1.
    rewrite (H1 A2 A4). field. lra.
Qed.
