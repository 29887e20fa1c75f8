(** Property C26: crossfades of CrossfadingConvolverUniform. *)
From Verif Require Import Base Memory Num RampModel RampProofs RingSum ConvolverModel ConvolverProofs
  RoutingProofs MultiConvolverProofs Dft RealDft CrossfadeProofs.
From Verif Require F5.
From Coq Require Import Ring Reals Qreals Lra QArith Qcanon.
Local Close Scope R_scope.
Local Close Scope Q_scope.
Local Close Scope Qc_scope.
Local Open Scope nat_scope.
Local Open Scope res_scope.

(** Every history of calls on a crossfading convolver constructed with initial filters
    [rows] gives the returns, exceptions and output blocks of the specification
    [xspec_step]: output [o] is the sum over the inputs with an entry (f, g) for (i, o) of
    weight_new p * (g * new_f * x_i) + weight_old p * (g * old_f * x_i), where p counts the
    samples since the last transition of filter f was started, new_f is the filter set
    last and old_f the one it replaced. *)
Theorem C26_crossfade :
  forall {T : Type} (rO rI : T) (radd rmul rsub : T -> T -> T) (ropp : T -> T),
  ring_theory rO rI radd rmul rsub ropp eq ->
  forall {K : Type} (kzero : K) (kadd kmul : K -> K -> K) (inj : T -> K)
         (fwd : list T -> list K) (inv : list K -> list T) (dsize : nat -> nat)
         (b : nat) (cst scale : T),
  transform_ok rO radd rmul kzero kadd kmul inj fwd inv dsize b cst ->
  rmul scale cst = rI ->
  forall ni no max nf maxlen transition up down alignment rows cols ops,
  length up = transition -> length down = transition -> 0 < b -> 0 < maxlen ->
  length rows <= nf -> cols <= maxlen -> Forall (fun r => length r = cols) rows ->
  Forall (xop_ok rO radd rmul kmul fwd inv dsize ni nf b (number_of_partitions maxlen b)) ops ->
  exists x,
    cross_make rO rI rmul kzero fwd dsize ni no max nf maxlen b transition up down alignment scale rows cols = (Ok tt, x)
    /\ outputs (cross_step rO radd rmul kadd kmul inj fwd inv) x ops
       = outputs (xspec_step rO rI radd rmul ni no max nf maxlen b up down) (xspec_init b transition rows) ops.
Proof.
  intros T rO rI radd rmul rsub ropp RT K kzero kadd kmul inj fwd inv dsize b cst scale TO Es
    ni no max nf maxlen transition up down al rows cols ops Lu Ld Hb Hm Lr Lc Fr W.
  destruct (cross_make_rel rO rI radd rmul rsub ropp RT kzero kadd kmul inj fwd inv dsize ni no max nf maxlen b
              transition up down cst TO Lu Ld Hb al scale rows cols Hm Es Lr Lc Fr) as (x & E & R).
  exists x. split; [exact E|].
  now apply (xrun_rel rO rI radd rmul rsub ropp RT kzero kadd kmul inj fwd inv dsize ni no max nf maxlen b
              transition up down cst TO Lu Ld Hb ops x _ R).
Qed.
Print Assumptions C26_crossfade.

(** The weights of the two ramps the constructor computes with efl::vectorRamp (C17):
    (n+1)/transition up to 1 and the complement; they are monotone, and the old filter is
    gone from sample transition - 1 onwards. *)
Theorem C26_weights :
  forall transition,
  let up := vector_ramp transition 0%Qc 1%Qc false true in
  let down := vector_ramp transition 1%Qc 0%Qc false true in
  let w n := weight_new 1%Qc up n in
  let v n := weight_old 0%Qc down n in
  length up = transition /\ length down = transition
  /\ (forall n, n < transition -> w n = (nq (n + 1) / nq transition)%Qc)
  /\ (forall n, transition <= n + 1 -> w n = 1%Qc /\ v n = 0%Qc)
  /\ (forall n, v n = (1 - w n)%Qc)
  /\ (forall n, 0 < w n /\ w n <= 1)%Qc
  /\ (forall n m, n <= m -> (w n <= w m)%Qc)
  /\ (forall n, n + 1 < transition -> (w n < 1)%Qc).
Proof.
  intros transition up down w v.
  assert (Lu : length up = transition) by apply ramp_length.
  assert (Ld : length down = transition) by apply ramp_length.
  split; [exact Lu|]. split; [exact Ld|].
  assert (N : forall n, n < transition -> nq transition <> 0%Qc) by (intros n Hn; apply nq_neq_0; lia).
  assert (Wn : forall n, n < transition -> w n = (nq (n + 1) / nq transition)%Qc
                          /\ v n = (1 - nq (n + 1) / nq transition)%Qc).
  { intros n Hn. unfold w, v, weight_new, weight_old, up, down, vector_ramp.
    destruct (Nat.eqb_spec transition 0); [lia|]. destruct (Nat.eqb_spec transition 1) as [E|E].
    - assert (E0 : n = 0) by lia. rewrite E0, E. simpl nth. rewrite nq_1. split; apply Qc_is_canon; reflexivity.
    - rewrite !map_seq_nth by exact Hn. cbn [b2n]. rewrite !Nat.sub_0_r, Nat.add_sub.
      specialize (N n Hn). rewrite (Nat.add_comm n 1). split; field; exact N. }
  assert (Wo : forall n, transition <= n -> w n = 1%Qc /\ v n = 0%Qc).
  { intros n Hn. unfold w, v, weight_new, weight_old. rewrite !nth_overflow by lia. auto. }
  assert (We : forall n, transition <= n + 1 -> w n = 1%Qc /\ v n = 0%Qc).
  { intros n Hn. destruct (le_lt_dec transition n) as [H|H]; [now apply Wo|].
    destruct (Wn n H) as [-> ->]. replace (n + 1) with transition by lia. specialize (N n H).
    split; field; exact N. }
  assert (Pos : forall n, n < transition -> (0 < / nq transition)%Qc).
  { intros n Hn. assert (P : (0 < nq transition)%Qc) by (apply nq_pos; lia).
    destruct (Qclt_le_dec 0 (/ nq transition)%Qc) as [H|H]; [exact H|exfalso].
    assert (M : (/ nq transition * nq transition <= 0 * nq transition)%Qc).
    { apply Qcmult_le_compat_r; [exact H|]. now apply Qclt_le_weak. }
    rewrite Qcmult_comm, Qcmult_inv_r, Qcmult_0_l in M by (apply (N n); exact Hn). now compute in M. }
  assert (Lt : forall a c n, n < transition -> a < c -> (nq a / nq transition < nq c / nq transition)%Qc).
  { intros a c n Hn H. apply Qcmult_lt_compat_r; [now apply (Pos n)|]. now apply nq_lt. }
  assert (One : forall n, n < transition -> (nq transition / nq transition = 1)%Qc).
  { intros n Hn. apply Qcmult_inv_r. now apply (N n). }
  assert (B : forall n, (0 < w n /\ w n <= 1)%Qc).
  { intros n. destruct (le_lt_dec transition n) as [H|H].
    - destruct (Wo n H) as [-> _]. split; [reflexivity|apply Qcle_refl].
    - destruct (Wn n H) as [-> _]. split.
      + replace 0%Qc with (nq 0 / nq transition)%Qc by (rewrite nq_0; apply Qcmult_0_l).
        apply (Lt _ _ n); lia.
      + rewrite <- (One n H). apply Qcmult_le_compat_r; [now apply nq_le; lia|].
        apply Qclt_le_weak. now apply (Pos n). }
  split; [intros n Hn; exact (proj1 (Wn n Hn))|]. split; [exact We|]. split.
  { intros n. destruct (le_lt_dec transition n) as [H|H].
    - destruct (Wo n H) as [-> ->]. ring.
    - destruct (Wn n H) as [-> ->]. reflexivity. }
  split; [exact B|]. split.
  - intros n m H. destruct (le_lt_dec transition m) as [H1|H1].
    + destruct (Wo m H1) as [-> _]. apply B.
    + destruct (Wn m H1) as [-> _]. destruct (Wn n ltac:(lia)) as [-> _].
      apply Qcmult_le_compat_r; [apply nq_le; lia|]. apply Qclt_le_weak. now apply (Pos m).
  - intros n H. destruct (Wn n ltac:(lia)) as [-> _]. rewrite <- (One n) by lia. apply (Lt _ _ n); lia.
Qed.
Print Assumptions C26_weights.

(** What a history of calls says, without reference to the specification machine: the
    signal received on an input, the filter last set for an index, the number of processed
    blocks. *)
Section History.
  Context {T K : Type}.
  Local Notation xop := (xop (T := T) (K := K)).
  Definition received (i : nat) (ops : list xop) : list T :=
    concat (map (fun op => match op with XProcess input => nth i input [] | _ => [] end) ops).
  Definition last_filter (maxlen idx : nat) (ops : list xop) (first : list T) : list T :=
    fold_left (fun h op => match op with
                           | XSetIr ir j _ => if (j =? idx) && (length ir <=? maxlen) then ir else h
                           | XSetFilter _ ir j _ => if j =? idx then ir else h
                           | _ => h
                           end) ops first.
  Definition processed (ops : list xop) : nat :=
    length (filter (fun op => match op with XProcess _ => true | _ => false end) ops).
  Definition leaves (idx : nat) (op : xop) : Prop :=
    match op with XSetIr _ j _ | XSetFilter _ _ j _ => j <> idx | _ => True end.
End History.

Section Transition.
  Context {T : Type} (rO rI : T) (radd rmul rsub : T -> T -> T) (ropp : T -> T).
  Variable RT : ring_theory rO rI radd rmul rsub ropp (@eq T).
  Add Ring TRingX : RT.
  Context {K : Type}.
  Local Notation xop := (xop (T := T) (K := K)).
  Variables (ni no max nf maxlen b : nat) (up down : list T).
  Local Notation step := (xspec_step (K := K) rO rI radd rmul ni no max nf maxlen b up down).

  Lemma spec_signal (ops : list xop) : forall s i, xs_signal (final step s ops) i = xs_signal s i ++ received i ops.
  Proof.
    induction ops as [|op ops IH]; intros s i; [unfold received; simpl; now rewrite app_nil_r|].
    rewrite final_cons, IH. unfold received. cbn [map concat]. rewrite app_assoc. f_equal.
    destruct op as [x|i' o'|l|ir j st|h ir j st|input]; cbn [xspec_step]; rewrite ?app_nil_r.
    - destruct (fset_entry _ _ _ _ _ _); reflexivity.
    - reflexivity.
    - destruct (if max <? length l then _ else _). reflexivity.
    - destruct (_ <=? _); reflexivity.
    - reflexivity.
    - reflexivity.
  Qed.
  Lemma spec_new (ops : list xop) : forall s idx,
    xs_new (final step s ops) idx = last_filter maxlen idx ops (xs_new s idx).
  Proof.
    induction ops as [|op ops IH]; intros s idx; [reflexivity|].
    rewrite final_cons, IH. unfold last_filter. cbn [fold_left]. f_equal.
    destruct op as [x|i' o'|l|ir j st|h ir j st|input]; cbn [xspec_step].
    - destruct (fset_entry _ _ _ _ _ _); reflexivity.
    - reflexivity.
    - destruct (if max <? length l then _ else _). reflexivity.
    - destruct (_ <=? _); cbn [fst change xs_new]; [|now rewrite andb_false_r].
      rewrite andb_true_r, (Nat.eqb_sym idx j). reflexivity.
    - cbn [fst change xs_new]. now rewrite (Nat.eqb_sym idx j).
    - reflexivity.
  Qed.
  Lemma spec_leaves (ops : list xop) : forall s idx, Forall (leaves idx) ops ->
    xs_new (final step s ops) idx = xs_new s idx /\ xs_old (final step s ops) idx = xs_old s idx
    /\ xs_age (final step s ops) idx = processed ops + xs_age s idx.
  Proof.
    induction ops as [|op ops IH]; intros s idx F; [auto|].
    assert (F1 := Forall_inv F). assert (F2 := Forall_inv_tail F). rewrite final_cons.
    destruct (IH (fst (step s op)) idx F2) as (-> & -> & ->). clear IH.
    unfold processed. cbn [filter].
    destruct op as [x|i' o'|l|ir j st|h ir j st|input]; cbn [xspec_step leaves] in *.
    - destruct (fset_entry _ _ _ _ _ _); auto.
    - auto.
    - destruct (if max <? length l then _ else _). auto.
    - destruct (_ <=? _); [|auto]. cbn [fst change xs_new xs_old xs_age].
      destruct (Nat.eqb_spec idx j); [congruence|]. auto.
    - cbn [fst change xs_new xs_old xs_age]. destruct (Nat.eqb_spec idx j); [congruence|]. auto.
    - cbn [fst xs_new xs_old xs_age length]. split; [reflexivity|]. split; [reflexivity|lia].
  Qed.

  Lemma table_sum_one v (t : list (routing T)) o r :
    filter (fun r => r_out r =? o) t = [r] ->
    table_sum rO radd v t o = v (r_in r) (r_filter r) (r_gain r).
  Proof.
    assert (G : forall t, table_sum rO radd v t o
       = fold_right (fun r acc => radd (v (r_in r) (r_filter r) (r_gain r)) acc) rO (filter (fun r => r_out r =? o) t)).
    { clear t. induction t as [|x t IH]; [reflexivity|]. cbn [table_sum fold_right filter].
      fold (table_sum rO radd v t o). rewrite IH. destruct (r_out x =? o); [reflexivity|ring]. }
    intros E. rewrite G, E. simpl. ring.
  Qed.
End Transition.

(** A transition, end to end.  Anything may have happened before ([ops1]); then the impulse
    response [ir] is set for filter [idx] with a transition, then anything may happen
    ([ops2], [n] blocks of audio among it) except changing this filter again.  An output
    that is fed by one routing entry, which uses this filter, receives in the following
    block the mix of the new and the previously set filter, with the weights of samples
    n*b, n*b+1, ... of the ramps. *)
Theorem C26_transition :
  forall {T : Type} (rO rI : T) (radd rmul rsub : T -> T -> T) (ropp : T -> T),
  ring_theory rO rI radd rmul rsub ropp eq ->
  forall {K : Type} (kzero : K) (kadd kmul : K -> K -> K) (inj : T -> K)
         (fwd : list T -> list K) (inv : list K -> list T) (dsize : nat -> nat)
         (b : nat) (cst scale : T),
  transform_ok rO radd rmul kzero kadd kmul inj fwd inv dsize b cst ->
  rmul scale cst = rI ->
  forall ni no max nf maxlen transition up down alignment rows cols,
  length up = transition -> length down = transition -> 0 < b -> 0 < maxlen ->
  length rows <= nf -> cols <= maxlen -> Forall (fun r => length r = cols) rows ->
  forall ops1 ir idx ops2 input x x' y r,
  let ops := ops1 ++ XSetIr ir idx true :: ops2 in
  Forall (xop_ok rO radd rmul kmul fwd inv dsize ni nf b (number_of_partitions maxlen b)) (ops ++ [XProcess input]) ->
  length ir <= maxlen -> Forall (leaves idx) ops2 ->
  cross_make rO rI rmul kzero fwd dsize ni no max nf maxlen b transition up down alignment scale rows cols = (Ok tt, x) ->
  x' = final (cross_step rO radd rmul kadd kmul inj fwd inv) x ops ->
  snd (cross_step rO radd rmul kadd kmul inj fwd inv x' (XProcess input)) = y ->
  filter (fun e => r_out e =? r_out r) (x_table x') = [r] -> r_filter r = idx ->
  exists z, y = XAudio (Ok z) /\ exists z', nth_error z (r_out r) = Some z' /\ length z' = b
  /\ forall k, k < b ->
     let n := processed ops2 * b + k in
     let signal := received (r_in r) (ops ++ [XProcess input]) in
     let sample h := rmul (r_gain r) (conv rO radd rmul h signal (length signal - b + k)) in
     nth k z' rO
     = radd (rmul (nth n up rI) (sample ir))
            (rmul (nth n down rO) (sample (last_filter maxlen idx ops1 (nth idx rows [])))).
Proof.
  intros T rO rI radd rmul rsub ropp RT K kzero kadd kmul inj fwd inv dsize b cst scale TO Es
    ni no max nf maxlen transition up down al rows cols Lu Ld Hb Hm Lr Lc Fr
    ops1 ir idx ops2 input x x' y r ops W Li F2 Ex Ex' Ey Ft Ei.
  destruct (cross_make_rel rO rI radd rmul rsub ropp RT kzero kadd kmul inj fwd inv dsize ni no max nf maxlen b
              transition up down cst TO Lu Ld Hb al scale rows cols Hm Es Lr Lc Fr) as (x0 & E & R).
  assert (x0 = x) by congruence. subst x0. clear E Ex.
  apply Forall_app in W as [W1 W2]. apply Forall_inv in W2.
  assert (R' := xrun_rel rO rI radd rmul rsub ropp RT kzero kadd kmul inj fwd inv dsize ni no max nf maxlen b
              transition up down cst TO Lu Ld Hb ops x _ R W1). destruct R' as [_ R']. rewrite <- Ex' in R'.
  set (sstep := xspec_step rO rI radd rmul ni no max nf maxlen b up down) in *.
  set (s0 := xspec_init b transition rows) in *.
  set (s := final sstep s0 ops) in *.
  destruct (xstep_rel rO rI radd rmul rsub ropp RT kzero kadd kmul inj fwd inv dsize ni no max nf maxlen b
              transition up down cst TO Lu Ld Hb x' s (XProcess input) R' W2) as [_ E].
  rewrite Ey in E. cbn [xspec_step snd] in E. eexists. split; [exact E|].
  destruct (y_table _ _ _ _ _ _ _ _ _ _ _ _ _ _ _ _ _ _ _ _ R') as (Vt & _ & _ & Mt).
  assert (Hr : In r (x_table x')).
  { assert (In r (filter (fun e => r_out e =? r_out r) (x_table x'))) as H by (rewrite Ft; now left).
    now apply filter_In in H. }
  destruct (proj2 Vt r Hr) as [Hi Ho].
  eexists. split.
  { unfold xspec_block. rewrite nth_error_map, (nth_error_nth' _ 0) by (now rewrite seq_length).
    rewrite seq_nth by exact Ho. cbn [option_map Nat.add]. reflexivity. }
  split; [now rewrite map_length, seq_length|]. intros k Hk n signal sample.
  rewrite map_seq_nth by exact Hk. unfold xspec_sample. cbn [xs_map].
  rewrite (sum_ext rO radd ni _ (fun i => match table_map (x_table x') i (r_out r) with
     | Some (f, g) => faded rO rI radd rmul b up down (MkXSpec (xs_map s) (xs_new s) (xs_old s) (xs_age s) (fun i => xs_signal s i ++ nth i input [])) k i f g
     | None => rO end)) by (intros i _; now rewrite Mt).
  rewrite <- (table_sum_map rO rI radd rmul rsub ropp RT ni no _ _ _ Vt).
  rewrite (table_sum_one rO rI radd rmul rsub ropp RT _ _ _ r Ft), Ei.
  unfold faded. cbn [xs_signal xs_new xs_old xs_age].
  assert (Sg : xs_signal s (r_in r) ++ nth (r_in r) input [] = signal).
  { unfold signal, s, sstep. rewrite spec_signal. cbn [xs_signal s0 xspec_init app].
    unfold received. rewrite map_app, concat_app. cbn [map concat]. now rewrite app_nil_r. }
  rewrite Sg.
  assert (Es' : s = final sstep (fst (sstep (final sstep s0 ops1) (XSetIr ir idx true))) ops2).
  { unfold s, ops. now rewrite final_app, final_cons. }
  destruct (spec_leaves rO rI radd rmul ni no max nf maxlen b up down ops2
              (fst (sstep (final sstep s0 ops1) (XSetIr ir idx true))) idx F2) as (N1 & N2 & N3).
  fold sstep in N1, N2, N3. rewrite <- Es' in N1, N2, N3. rewrite N1, N2, N3.
  assert (Ec : fst (sstep (final sstep s0 ops1) (XSetIr ir idx true)) = change (final sstep s0 ops1) ir idx true).
  { unfold sstep at 1. cbn [xspec_step]. destruct (Nat.leb_spec (length ir) maxlen); [reflexivity|lia]. }
  rewrite Ec. cbn [change xs_new xs_old xs_age]. rewrite Nat.eqb_refl. cbn [andb].
  assert (Ln : xs_new (final sstep s0 ops1) idx = last_filter maxlen idx ops1 (nth idx rows [])).
  { unfold sstep. rewrite spec_new. reflexivity. }
  rewrite Ln. unfold weight_new, weight_old. rewrite Nat.add_0_r. reflexivity.
Qed.
Print Assumptions C26_transition.

(** The ramps of the constructor as real numbers. *)
Definition to_real (q : Qc) : R := Q2R (this q).
Definition fade_in (transition : nat) : list R := map to_real (vector_ramp transition 0%Qc 1%Qc false true).
Definition fade_out (transition : nat) : list R := map to_real (vector_ramp transition 1%Qc 0%Qc false true).
(** the intended weight of the new filter at sample n of a transition *)
Definition weight (transition n : nat) : R :=
  if n <? transition then (INR (n + 1) / INR transition)%R else 1%R.

Lemma to_real_1 : to_real 1%Qc = 1%R.
Proof. unfold to_real. cbn. unfold Q2R. simpl. field. Qed.
Lemma to_real_0 : to_real 0%Qc = 0%R.
Proof. unfold to_real. cbn. unfold Q2R. simpl. field. Qed.
Lemma to_real_minus a c : to_real (a - c)%Qc = (to_real a - to_real c)%R.
Proof.
  unfold to_real. rewrite <- Q2R_minus. apply Qeq_eqR. unfold Qcminus, Qminus.
  rewrite this_plus, this_opp. reflexivity.
Qed.
Lemma to_real_nq n : to_real (nq n) = INR n.
Proof.
  unfold to_real, nq. rewrite (Qeq_eqR _ _ (this_zq (Z.of_nat n))).
  unfold Q2R, inject_Z. simpl. rewrite INR_IZR_INZ. field.
Qed.
Lemma to_real_div a c : c <> 0%Qc -> to_real (a / c)%Qc = (to_real a / to_real c)%R.
Proof.
  intros H. unfold to_real. rewrite <- Q2R_div.
  - apply Qeq_eqR. unfold Qcdiv, Qcinv, Qdiv. rewrite this_mult. unfold Q2Qc. cbn [this].
    now rewrite Qred_correct.
  - intros E. apply H. apply Qc_is_canon. exact E.
Qed.
Lemma fade_weights transition n :
  nth n (fade_in transition) 1%R = weight transition n
  /\ nth n (fade_out transition) 0%R = (1 - weight transition n)%R.
Proof.
  destruct (C26_weights transition) as (Lu & Ld & Wn & _ & C & _).
  unfold fade_in, fade_out. rewrite <- to_real_1 at 1. rewrite <- to_real_0, !map_nth.
  unfold weight_new, weight_old in *. rewrite C, to_real_minus, to_real_1.
  assert (E : to_real (nth n (vector_ramp transition 0%Qc 1%Qc false true) 1%Qc) = weight transition n); [|now rewrite E].
  unfold weight. destruct (Nat.ltb_spec n transition) as [H|H].
  - rewrite Wn by exact H. rewrite to_real_div by (apply nq_neq_0; lia). now rewrite !to_real_nq.
  - rewrite nth_overflow by (rewrite Lu; exact H). apply to_real_1.
Qed.

(** The same over the reals with the half-spectrum DFT and the ramps of the constructor:
    the output is w * new + (1 - w) * old with w = min (1, (n+1) / transition), and from
    sample transition - 1 of the transition onwards exactly the new filter. *)
Theorem C26_real :
  forall b ni no max nf maxlen transition alignment rows cols,
  0 < b -> 0 < maxlen -> length rows <= nf -> cols <= maxlen -> Forall (fun r => length r = cols) rows ->
  forall ops1 (ir : list R) idx ops2 input x x' y r,
  let ops := ops1 ++ XSetIr ir idx true :: ops2 in
  let step := cross_step 0%R Rplus Rmult Cadd Cmul Cinj (rfft b) (irfft b) in
  Forall (xop_ok 0%R Rplus Rmult Cmul (rfft b) (irfft b) (fun b => b + 1) ni nf b (number_of_partitions maxlen b)) (ops ++ [XProcess input]) ->
  length ir <= maxlen -> Forall (leaves idx) ops2 ->
  cross_make 0%R 1%R Rmult C0 (rfft b) (fun b => b + 1) ni no max nf maxlen b transition
    (fade_in transition) (fade_out transition) alignment (/ INR (2 * b))%R rows cols = (Ok tt, x) ->
  x' = final step x ops ->
  snd (step x' (XProcess input)) = y ->
  filter (fun e => r_out e =? r_out r) (x_table x') = [r] -> r_filter r = idx ->
  exists z, y = XAudio (Ok z) /\ exists z', nth_error z (r_out r) = Some z' /\ length z' = b
  /\ forall k, k < b ->
     let n := processed ops2 * b + k in
     let signal := received (r_in r) (ops ++ [XProcess input]) in
     let sample h := (r_gain r * conv 0%R Rplus Rmult h signal (length signal - b + k))%R in
     nth k z' 0%R
     = (weight transition n * sample ir
        + (1 - weight transition n) * sample (last_filter maxlen idx ops1 (nth idx rows [])))%R
     /\ (transition <= n + 1 -> nth k z' 0%R = sample ir)
     /\ (0 < weight transition n <= 1)%R.
Proof.
  intros b ni no max nf maxlen transition al rows cols Hb Hm Lr Lc Fr ops1 ir idx ops2 input x x' y r ops step
    W Li F2 Ex Ex' Ey Ft Ei.
  destruct (C26_weights transition) as (Lu & Ld & _).
  assert (Lu' : length (fade_in transition) = transition) by (unfold fade_in; now rewrite map_length).
  assert (Ld' : length (fade_out transition) = transition) by (unfold fade_out; now rewrite map_length).
  assert (Es : (/ INR (2 * b) * INR (2 * b))%R = 1%R) by (apply Rinv_l, not_0_INR; lia).
  destruct (C26_transition 0%R 1%R Rplus Rmult Rminus Ropp RTheory C0 Cadd Cmul Cinj (rfft b) (irfft b) (fun b => b + 1) b (INR (2 * b))
    (/ INR (2 * b))%R (rfft_transform_ok b Hb) Es ni no max nf maxlen transition (fade_in transition) (fade_out transition) al rows cols
    Lu' Ld' Hb Hm Lr Lc Fr ops1 ir idx ops2 input x x' y r W Li F2 Ex Ex' Ey Ft Ei) as (z & E & z' & E' & L & N).
  exists z. split; [exact E|]. exists z'. split; [exact E'|]. split; [exact L|].
  intros k Hk n signal sample. specialize (N k Hk). cbv zeta in N. fold n in N. fold ops in N. fold signal in N.
  destruct (fade_weights transition n) as [Wu Wd]. rewrite Wu, Wd in N.
  split; [exact N|].
  assert (One : transition <= n + 1 -> weight transition n = 1%R).
  { intros H. unfold weight. destruct (Nat.ltb_spec n transition) as [H1|H1]; [|reflexivity].
    replace (n + 1) with transition by lia. apply Rinv_r, not_0_INR. lia. }
  split.
  - intros H. rewrite N, One by exact H. unfold sample. ring.
  - unfold weight. destruct (Nat.ltb_spec n transition) as [H1|H1]; [|lra].
    assert (P : (0 < INR transition)%R) by (apply lt_0_INR; lia).
    assert (Q : (0 < INR (n + 1))%R) by (apply lt_0_INR; lia).
    assert (Q' : (INR (n + 1) <= INR transition)%R) by (apply le_INR; lia).
    split; [now apply Rdiv_lt_0_compat|]. apply (Rmult_le_reg_r (INR transition)); [exact P|].
    unfold Rdiv. rewrite Rmult_assoc, Rinv_l by lra. lra.
Qed.
Print Assumptions C26_real.

(** Concrete run over the integers modulo 5 (1/2 = 3, so the ramps of length 2 are
    [1/2; 1] and [1/2; 0]): the filter [1] is replaced by [2]. *)
Local Notation fwd5 := (dft F5.f0 F5.add F5.mul 4 F5.w).
Local Notation inv5 := (idft F5.f0 F5.add F5.mul 4 F5.w).
Definition up5 := [F5.f3; F5.f1].
Definition down5 := [F5.f3; F5.f0].
Definition make5 := cross_make F5.f0 F5.f1 F5.mul F5.f0 fwd5 (fun _ => 4) 1 1 1 1 2 2 2 up5 down5 1 F5.f4 [[F5.f1; F5.f0]] 2.
Definition step5 := cross_step F5.f0 F5.add F5.mul F5.add F5.mul (fun g => g) fwd5 inv5.
Definition ops26 : list (xop (T := F5.f5) (K := F5.f5)) :=
  [ XSetRouting (MkRouting 0 0 0 F5.f1); XProcess [[F5.f1; F5.f2]];
    XSetIr [F5.f2] 0 true; XProcess [[F5.f1; F5.f1]]; XProcess [[F5.f1; F5.f3]] ].
Example C26_example :
  exists x, make5 = (Ok tt, x)
  /\ outputs step5 x ops26
     = [ XReturn (Ok tt); XAudio (Ok [[F5.f1; F5.f2]]);
         XReturn (Ok tt);
         XAudio (Ok [[F5.f4 (* 3/2 *); F5.f2]]); XAudio (Ok [[F5.f2; F5.f1]]) ].
Proof.
  destruct (C26_crossfade F5.f0 F5.f1 F5.add F5.mul F5.sub F5.opp F5.ring F5.f0 F5.add F5.mul (fun g => g)
    _ _ (fun _ => 4) 2 F5.f4 F5.f4 F5.transform eq_refl 1 1 1 1 2 2 up5 down5 1 [[F5.f1; F5.f0]] 2 ops26)
    as (x & E & O); try reflexivity; try (simpl; lia).
  - repeat constructor.
  - repeat constructor.
  - exists x. split; [exact E|]. unfold step5. rewrite O. reflexivity.
Qed.
Example C26_transition_example :
  exists x z, make5 = (Ok tt, x)
  /\ snd (step5 (final step5 x [ XSetRouting (MkRouting 0 0 0 F5.f1); XProcess [[F5.f1; F5.f2]]; XSetIr [F5.f2] 0 true ])
            (XProcess [[F5.f1; F5.f1]])) = XAudio (Ok z)
  /\ nth 0 (nth 0 z []) F5.f0 = F5.f4.
Proof.
  destruct C26_example as (x & E & O). exists x.
  exists [[F5.f4; F5.f2]]. split; [exact E|]. split; [|reflexivity].
  unfold ops26 in O. rewrite !outputs_cons in O. apply (f_equal (fun l => nth 3 l (XReturn UB))) in O. cbn [nth] in O.
  rewrite !final_cons. exact O.
Qed.

(** initFilters() of a running convolver: it writes the first filter set only.  If the
    filter has been set an odd number of times, the second set is in force and the given
    filters do not become active: here the new filter [3] has no effect. *)
Theorem C26_init_filters_refuted :
  exists x, make5 = (Ok tt, x)
  /\ let x1 := final step5 x [ XSetRouting (MkRouting 0 0 0 F5.f1); XSetIr [F5.f2] 0 false ] in
     let '(r, x2) := cross_init_filters F5.f0 F5.mul F5.f0 fwd5 (fun _ => 4) x1 [[F5.f3; F5.f0]] 2 in
     r = Ok tt
     /\ outputs step5 x2 [ XProcess [[F5.f1; F5.f0]] ] = [ XAudio (Ok [[F5.f0; F5.f0]]) ].
Proof. eexists. split; [reflexivity|]. vm_compute. split; reflexivity. Qed.
Print Assumptions C26_init_filters_refuted.

(** setRoutingEntry() compares the filter index with the number of filters of the core
    convolver, which is twice the configured number: an index in the upper half is
    accepted and process() then reads beyond mCurrentFilterOutput; setImpulseResponse()
    does not check the index at all. *)
Theorem C26_filter_index_refuted :
  exists x, make5 = (Ok tt, x)
  /\ outputs step5 x [ XSetRouting (MkRouting 0 0 1 F5.f1); XProcess [[F5.f1; F5.f0]] ]
     = [ XReturn (Ok tt); XAudio UB ]
  /\ outputs step5 x [ XSetIr [F5.f1] 1 true ] = [ XReturn UB ].
Proof. eexists. split; [reflexivity|]. split; vm_compute; reflexivity. Qed.
Print Assumptions C26_filter_index_refuted.
