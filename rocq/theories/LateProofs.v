(** Lemmas about the late reverberation filters (C68). *)
From Coq Require Import Qreals.
From Verif Require Import Base Num DelayLineModel DelayLineProofs ReverbModel ReverbProofs LateModel.
From Coq Require Import Lra.
Local Open Scope R_scope.

(** ** Specification *)
(** The value at a position of a sequence, zero outside *)
Definition val (l : list R) (k : nat) : R := nth k l 0.
Definition par (l : list Qc) (k : nat) : Qc := nth k l (Q2Qc 0).
(** [y] is the response of the section to [x]; both start with two values of the past *)
Definition responds (k : section) (x y : list R) : Prop :=
  length y = length x /\
  forall n, (S (S n) < length x)%nat ->
    val y (S (S n)) + k_a1 k * val y (S n) + k_a2 k * val y n
    = k_b0 k * val x (S (S n)) + k_b1 k * val x (S n) + k_b2 k * val x n.
(** A nonnegative integer nearest to [x] *)
Definition nearest (x : Qc) (n : nat) : Prop := (nq n - half <= x)%Qc /\ (x <= nq n + half)%Qc.
(** Silence of [d] samples, a linear rise in [a] samples to [gain], then a geometric
    sequence of ratio [r], in [n] samples *)
Definition is_envelope (n d a : nat) (gain r : R) (e : list R) : Prop :=
  length e = n /\ (d + a < n)%nat
  /\ (forall k, (k < d)%nat -> val e k = 0)
  /\ ((0 < a)%nat -> val e d = 0)
  /\ (forall k, (d <= k < d + a)%nat -> val e (S k) = val e k + gain / INR a)
  /\ val e (d + a) = gain
  /\ (forall k, (d + a <= k)%nat -> (S k < n)%nat -> val e (S k) = r * val e k).

(** ** Sequences *)
Lemma val_app a b k : val (a ++ b) k = if (k <? length a)%nat then val a k else val b (k - length a).
Proof.
  unfold val. destruct (Nat.ltb_spec k (length a)); [now apply app_nth1|now apply app_nth2].
Qed.
Lemma val_map_seq f s n k : (k < n)%nat -> val (map f (seq s n)) k = f (s + k)%nat.
Proof.
  intros H. unfold val. rewrite (nth_indep _ 0 (f 0%nat)) by (rewrite map_length, seq_length; exact H).
  rewrite map_nth, seq_nth by exact H. reflexivity.
Qed.
Lemma val_repeat n k : val (repeat 0 n) k = 0.
Proof. unfold val. revert k. induction n; intros [|k]; cbn; auto. Qed.
Lemma val_out l k : (length l <= k)%nat -> val l k = 0.
Proof. apply nth_overflow. Qed.
Lemma val_ext a b : length a = length b -> (forall k, (k < length a)%nat -> val a k = val b k) -> a = b.
Proof.
  revert b. induction a as [|x a IH]; intros [|y b] L H; try discriminate; [reflexivity|].
  f_equal; [apply (H 0%nat); cbn; lia|]. apply IH; [now injection L|]. intros k Hk. apply (H (S k)). cbn. lia.
Qed.
Lemma val_skipn n l k : val (skipn n l) k = val l (n + k).
Proof. unfold val. revert l. induction n; intros [|x l]; cbn; auto. now destruct k. Qed.

Lemma responds_loop k input : forall x2 x1 y2 y1,
  responds k (x2 :: x1 :: input) (y2 :: y1 :: biquad_loop k x2 x1 y2 y1 input).
Proof.
  induction input as [|x r IH]; intros x2 x1 y2 y1; cbn [biquad_loop].
  - split; [reflexivity|]. intros n H. cbn in H. lia.
  - set (y := _ - k_a2 k * y2). specialize (IH x1 x y1 y). destruct IH as [L H]. split.
    + cbn [length] in *. lia.
    + intros [|n] Hn.
      * unfold val. cbn [nth]. subst y. ring.
      * specialize (H n). cbn [length] in *. apply H. lia.
Qed.
Lemma responds_unique k x y y' : responds k x y -> responds k x y' -> val y 0 = val y' 0 -> val y 1 = val y' 1 -> y = y'.
Proof.
  intros [L H] [L' H'] E0 E1. apply val_ext; [congruence|]. rewrite L.
  assert (G : forall n, (n < length x -> val y n = val y' n)%nat /\ (S n < length x -> val y (S n) = val y' (S n))%nat).
  { induction n as [|n [I1 I2]]; [split; auto|]. split; [exact I2|]. intros Hn.
    specialize (H n Hn). specialize (H' n Hn). rewrite I1, I2 in H by lia.
    assert (Q : forall a b c d : R, a + c + d = b + c + d -> a = b).
    { clear. intros a b c d Q. replace a with (a + c + d - c - d) by ring. rewrite Q. ring. }
    apply (Q _ _ _ _ (eq_trans H (eq_sym H'))). }
  intros n Hn. now apply G.
Qed.

(** ** Envelopes *)
Section Rounding.
Local Open Scope Qc_scope.
Lemma round_nonneg x : 0 <= x -> (0 <= round_away x)%Z.
Proof.
  intros H. destruct (round_away_close x) as [_ C]. pose proof half_twice as Hh.
  assert (0 < half) by reflexivity. apply zq_half_le. rewrite zq_0. qclra.
Qed.
Lemma round_neg x : (round_away x < 0)%Z <-> x <= - half.
Proof.
  assert (P : 0 < half) by reflexivity. pose proof half_twice as Hh. split.
  - intros H. destruct (round_away_close x) as [_ C].
    assert (zq (round_away x) <= zq (-1)) by (apply zq_le; lia).
    replace (zq (-1)) with (- (1)) in H0 by reflexivity. qclra.
  - intros H. unfold round_away. fold half. destruct (qlt_spec 0 x) as [H1|H1]; [exfalso; qclra|].
    unfold trunc. destruct (qlt_spec (x - half) 0) as [H2|H2]; [|exfalso; qclra].
    destruct (qfloor_spec (- (x - half))) as [F1 F2].
    assert (1 <= - (x - half)) by qclra.
    assert (zq 0 < zq (qfloor (- (x - half)))) by (rewrite zq_0; qclra).
    rewrite zq_lt in H3. lia.
Qed.
Lemma round_nearest x : (0 <= round_away x)%Z -> nearest x (Z.to_nat (round_away x)).
Proof.
  intros H. unfold nearest, nq. rewrite Z2Nat.id by exact H. apply round_away_close.
Qed.

End Rounding.

  Lemma envelope_ok n delay gain attack decay fs e : envelope n delay gain attack decay fs = Ok e ->
    exists d a, nearest (delay * fs)%Qc d /\ nearest (attack * fs)%Qc a /\ is_envelope n d a (real gain) (exp (real (decay / fs)%Qc)) e.
  Proof.
    unfold envelope, to_size.
    destruct (Z.ltb_spec (round_away (delay * fs)%Qc) 0) as [D|D]; [discriminate|]. cbn [bind].
    destruct (Z.ltb_spec (round_away (attack * fs)%Qc) 0) as [A|A]; [discriminate|]. cbn [bind]. cbv zeta.
    apply round_nearest in D. apply round_nearest in A.
    set (d := Z.to_nat _) in *. set (a := Z.to_nat (round_away (attack * fs)%Qc)) in *. clearbody d a.
    destruct (Nat.leb_spec n d) as [L1|L1]; [discriminate|]. cbn [orb].
    destruct (Nat.leb_spec n (d + a)) as [L2|L2]; [discriminate|]. intros H. injection H as <-.
    exists d, a. split; [exact D|]. split; [exact A|].
    set (up := fun k => real gain * (INR (k - d) / INR a)). set (down := fun k => real gain * exp (real (decay / fs)%Qc * INR (k - a - d))).
    set (e := _ ++ _).
    assert (V : forall k, (k < n)%nat -> val e k = if (k <? d)%nat then 0 else if (k <? d + a)%nat then up k else down k).
    { intros k Hk. subst e. rewrite val_app, repeat_length. destruct (Nat.ltb_spec k d) as [K|K]; [apply val_repeat|].
      rewrite val_app, map_length, seq_length. destruct (Nat.ltb_spec k (d + a)) as [K2|K2].
      - destruct (Nat.ltb_spec (k - d) a) as [K3|K3]; [|lia]. rewrite val_map_seq by lia. f_equal. lia.
      - destruct (Nat.ltb_spec (k - d) a) as [K3|K3]; [lia|]. rewrite val_map_seq by lia. f_equal. lia. }
    assert (G0 : down (d + a)%nat = real gain).
    { unfold down. replace (d + a - a - d)%nat with 0%nat by lia. cbn [INR].
      rewrite Rmult_0_r, exp_0. ring. }
    split; [subst e; rewrite !app_length, repeat_length, !map_length, !seq_length; lia|]. split; [exact L2|].
    split; [|split; [|split; [|split]]].
    - intros k Hk. rewrite V by lia. destruct (Nat.ltb_spec k d); [reflexivity|lia].
    - intros Ha. rewrite V by lia. destruct (Nat.ltb_spec d d); [lia|]. destruct (Nat.ltb_spec d (d + a)); [|lia].
      unfold up. rewrite Nat.sub_diag. cbn [INR]. unfold Rdiv. ring.
    - intros k Hk. rewrite !V by lia.
      assert (Na : INR a <> 0) by (apply not_0_INR; lia).
      destruct (Nat.ltb_spec k d); [lia|]. destruct (Nat.ltb_spec k (d + a)); [|lia].
      destruct (Nat.ltb_spec (S k) d); [lia|].
      assert (U : up (S k) = up k + real gain / INR a).
      { unfold up. replace (S k - d)%nat with (S (k - d)) by lia. rewrite S_INR. unfold Rdiv. ring. }
      destruct (Nat.ltb_spec (S k) (d + a)) as [K|K]; [exact U|].
      rewrite <- U. replace (S k) with (d + a)%nat by lia. rewrite G0. unfold up.
      replace (d + a - d)%nat with a by lia. field. exact Na.
    - rewrite V by lia. destruct (Nat.ltb_spec (d + a) d); [lia|]. destruct (Nat.ltb_spec (d + a) (d + a)); [lia|]. exact G0.
    - intros k K1 K2. rewrite !V by lia. destruct (Nat.ltb_spec (S k) d); [lia|]. destruct (Nat.ltb_spec (S k) (d + a)); [lia|].
      destruct (Nat.ltb_spec k d); [lia|]. destruct (Nat.ltb_spec k (d + a)); [lia|].
      unfold down. replace (S k - a - d)%nat with (S (k - a - d)) by lia. rewrite S_INR.
      rewrite Rmult_plus_distr_l, exp_plus, Rmult_1_r. ring.
  Qed.

  (** the outcomes *)
  Lemma envelope_cases n delay gain attack decay fs :
    match envelope n delay gain attack decay fs with
    | Ok _ => True
    | Throw e => e = InvalidArgument /\ exists d a, nearest (delay * fs)%Qc d /\ nearest (attack * fs)%Qc a /\ (n <= d + a)%nat
    | UB => (delay * fs <= - half)%Qc \/ (attack * fs <= - half)%Qc
    end.
  Proof.
    unfold envelope, to_size.
    destruct (Z.ltb_spec (round_away (delay * fs)%Qc) 0) as [D|D]; [left; now apply round_neg|]. cbn [bind].
    destruct (Z.ltb_spec (round_away (attack * fs)%Qc) 0) as [A|A]; [right; now apply round_neg|]. cbn [bind]. cbv zeta.
    apply round_nearest in D. apply round_nearest in A.
    destruct (Nat.leb_spec n (Z.to_nat (round_away (delay * fs)%Qc))) as [L1|L1]; cbn [orb].
    - split; [reflexivity|]. do 2 eexists. split; [exact D|]. split; [exact A|]. lia.
    - destruct (Nat.leb_spec n (Z.to_nat (round_away (delay * fs)%Qc) + Z.to_nat (round_away (attack * fs)%Qc))) as [L2|L2]; [|exact I].
      split; [reflexivity|]. do 2 eexists. split; [exact D|]. split; [exact A|]. exact L2.
  Qed.
  Lemma envelope_ub n delay gain attack decay fs :
    envelope n delay gain attack decay fs = UB <-> (delay * fs <= - half)%Qc \/ (attack * fs <= - half)%Qc.
  Proof.
    split; [intros E; pose proof (envelope_cases n delay gain attack decay fs) as H; now rewrite E in H|].
    rewrite <- !round_neg. unfold envelope, to_size. intros H.
    destruct (Z.ltb_spec (round_away (delay * fs)%Qc) 0) as [D|D]; [reflexivity|]. cbn [bind].
    destruct (Z.ltb_spec (round_away (attack * fs)%Qc) 0) as [A|A]; [reflexivity|]. lia.
  Qed.

  (** ** One filter *)
  Definition noise_at (c : lconfig) (obj b : nat) : list R := nth (obj * 9 + b) (f_noise c) [].
  Definition sound (c : lconfig) : Prop :=
    (1 <= f_length c)%nat /\ length (f_noise c) = (f_objects c * 9)%nat
    /\ Forall (fun r => length r = f_length c) (f_noise c).
  Definition band_envelope (c : lconfig) (l : late) (b : nat) : res (list R) :=
    envelope (f_length c) (l_onset l) (par (l_levels l) b) (par (l_attacks l) b) (par (l_decays l) b) (f_fs c).
  Fixpoint mix (c : lconfig) (obj b : nat) (envs : list (list R)) (k : nat) : R :=
    match envs with
    | [] => 0
    | e :: r => val (noise_at c obj b) k * val e k + mix c obj (S b) r k
    end.

  Lemma multiply_spec a : forall b, length a = length b ->
    length (multiply a b) = length a /\ forall k, val (multiply a b) k = val a k * val b k.
  Proof.
    induction a as [|x a IH]; intros [|y b] L; try discriminate; cbn [multiply].
    - split; [reflexivity|]. intros k. destruct k; unfold val; cbn [nth]; ring.
    - destruct (IH b) as [I1 I2]; [now injection L|]. split; [cbn; now rewrite I1|]. intros [|k]; [reflexivity|]. apply I2.
  Qed.
  Lemma multiply_add_spec a : forall b z, length a = length b -> length a = length z ->
    length (multiply_add a b z) = length a /\ forall k, val (multiply_add a b z) k = val z k + val a k * val b k.
  Proof.
    induction a as [|x a IH]; intros [|y b] [|w z] L M; try discriminate; cbn [multiply_add].
    - split; [reflexivity|]. intros k. destruct k; unfold val; cbn [nth]; ring.
    - destruct (IH b z) as [I1 I2]; [now injection L|now injection M|]. split; [cbn; now rewrite I1|]. intros [|k]; [reflexivity|]. apply I2.
  Qed.
  Lemma envelope_length n delay gain attack decay fs e : envelope n delay gain attack decay fs = Ok e -> length e = n.
  Proof.
    unfold envelope, to_size.
    destruct (_ <? 0)%Z; [discriminate|]. cbn [bind]. destruct (_ <? 0)%Z; [discriminate|]. cbn [bind]. cbv zeta.
    destruct (Nat.leb_spec n (Z.to_nat (round_away (delay * fs)))) as [L1|L1]; [discriminate|]. cbn [orb].
    destruct (Nat.leb_spec n (Z.to_nat (round_away (delay * fs)) + Z.to_nat (round_away (attack * fs)))) as [L2|L2]; [discriminate|].
    intros H. injection H as <-. rewrite !app_length, repeat_length, !map_length, !seq_length. lia.
  Qed.
  Lemma elem_ok l b : (b < length l)%nat -> elem l b = Ok (par l b).
  Proof. intros H. unfold elem, par. now rewrite (nth_error_nth' l (Q2Qc 0) H). Qed.
  Lemma noise_ok c obj b : sound c -> (obj < f_objects c)%nat -> (b < 9)%nat ->
    noise_row c obj b = Ok (noise_at c obj b) /\ length (noise_at c obj b) = f_length c.
  Proof.
    intros (_ & L & F) Ho Hb. unfold noise_row, noise_at, bands.
    assert (H : (obj * 9 + b < length (f_noise c))%nat) by nia.
    rewrite (nth_error_nth' (f_noise c) [] H). split; [reflexivity|].
    rewrite Forall_forall in F. apply F. now apply nth_In.
  Qed.

  Lemma ir_loop_spec c obj l m : sound c -> (obj < f_objects c)%nat -> nine l -> forall b ir, (b + m = 9)%nat -> length ir = f_length c ->
    (b = 0%nat -> forall k, val ir k = 0) ->
    exists envs, (length envs <= m)%nat
      /\ (forall i, (i < length envs)%nat -> band_envelope c l (b + i) = Ok (nth i envs []))
      /\ let '(f, r) := ir_loop c obj l (seq b m) ir in
         length f = f_length c /\ (forall k, val f k = val ir k + mix c obj b envs k)
         /\ match r with
            | Ok _ => length envs = m
            | Throw e => (length envs < m)%nat /\ band_envelope c l (b + length envs) = Throw e
            | UB => (length envs < m)%nat /\ band_envelope c l (b + length envs) = UB
            end.
  Proof.
    intros Sc Ho (N1 & N2 & N3). induction m as [|m IH]; intros b ir Hb Li Z0; cbn [seq ir_loop].
    - exists []. split; [cbn; lia|]. split; [cbn; lia|]. split; [exact Li|]. split; [|reflexivity]. intros k. cbn. ring.
    - unfold bands in *. rewrite !elem_ok by lia. cbn [bind]. fold (band_envelope c l b).
      destruct (band_envelope c l b) as [env|e|] eqn:E; cbn [bind].
      2,3: exists []; split; [cbn; lia|]; split; [cbn; lia|]; split; [exact Li|]; split; [intros k; cbn; ring|];
           split; [cbn; lia|]; cbn [length]; now rewrite Nat.add_0_r.
      destruct (noise_ok c obj b Sc Ho) as [-> Ln]; [lia|]. cbn [bind].
      pose proof (envelope_length _ _ _ _ _ _ _ E) as Le.
      set (ir' := if (b =? 0)%nat then _ else _).
      assert (I : length ir' = f_length c /\ forall k, val ir' k = val ir k + val (noise_at c obj b) k * val env k).
      { subst ir'. destruct (Nat.eqb_spec b 0) as [B0|B0].
        - destruct (multiply_spec (noise_at c obj b) env) as [M1 M2]; [congruence|]. split; [congruence|].
          intros k. rewrite M2, (Z0 B0). ring.
        - destruct (multiply_add_spec (noise_at c obj b) env ir) as [M1 M2]; [congruence|congruence|]. split; [congruence|exact M2]. }
      destruct I as [I1 I2]. destruct (IH (S b) ir') as (envs & P1 & P2 & P3); [lia|exact I1|lia|].
      exists (env :: envs). split; [cbn; lia|]. split.
      { intros [|i] Hi; [now rewrite Nat.add_0_r|]. cbn [length] in Hi. cbn [nth]. rewrite <- P2 by lia. f_equal. lia. }
      destruct (ir_loop c obj l (seq (S b) m) ir') as [f r]. destruct P3 as (Q1 & Q2 & Q3). split; [exact Q1|]. split.
      { intros k. rewrite Q2, I2. cbn [mix]. ring. }
      cbn [length]. replace (b + S (length envs))%nat with (S b + length envs)%nat by lia.
      destruct r; [lia| |]; (split; [lia|apply Q3]).
  Qed.

  (** What a filter should be: the sum over the leading bands whose envelope fits *)
  Definition is_filter (c : lconfig) (obj : nat) (l : late) (f : list R) : Prop :=
    length f = f_length c /\
    exists envs, (forall b, (b < length envs)%nat -> band_envelope c l b = Ok (nth b envs []))
      /\ (length envs = 9%nat \/ (length envs < 9)%nat /\ band_envelope c l (length envs) = Throw InvalidArgument)
      /\ forall k, val f k = mix c obj 0 envs k.
  Definition timely (l : late) : Prop := (0 <= l_onset l)%Qc /\ Forall (fun a => 0 <= a)%Qc (l_attacks l).
  Lemma timely_envelope c l b : (0 <= f_fs c)%Qc -> nine l -> timely l -> (b < 9)%nat -> band_envelope c l b <> UB.
  Proof.
    intros Fs (_ & _ & N3) [T1 T2] Hb E. apply envelope_ub in E.
    assert (P : (0 < half)%Qc) by reflexivity.
    assert ((0 <= par (l_attacks l) b)%Qc).
    { rewrite Forall_forall in T2. apply T2. apply nth_In. unfold bands in N3. lia. }
    pose proof (qmult_nonneg _ _ T1 Fs). pose proof (qmult_nonneg _ _ H Fs). destruct E as [E|E]; qclra.
  Qed.
  Lemma filter_ok c obj l : sound c -> (0 <= f_fs c)%Qc -> (obj < f_objects c)%nat -> nine l -> timely l ->
    exists f, impulse_response c obj l (repeat 0 (f_length c)) = Ok f /\ is_filter c obj l f.
  Proof.
    intros Sc Fs Ho N T. unfold impulse_response.
    destruct (ir_loop_spec c obj l 9 Sc Ho N 0 (repeat 0 (f_length c))) as (envs & E1 & E2 & E3).
    { reflexivity. } { apply repeat_length. } { intros _ k. apply val_repeat. }
    unfold bands. destruct (ir_loop c obj l (seq 0 9) (repeat 0 (f_length c))) as [f r].
    destruct E3 as (Q1 & Q2 & Q3). cbn [Nat.add] in *.
    assert (F : match r with UB => False | _ => is_filter c obj l f end).
    { destruct r as [u|e|].
      - split; [exact Q1|]. exists envs. split; [exact E2|]. split; [now left|]. intros k. rewrite Q2, val_repeat. ring.
      - split; [exact Q1|]. exists envs. split; [exact E2|]. split; [|intros k; rewrite Q2, val_repeat; ring].
        destruct Q3 as [Q3 Q4]. right. split; [exact Q3|]. rewrite Q4. unfold band_envelope in Q4.
        match type of Q4 with ?x = _ => pose proof (envelope_cases (f_length c) (l_onset l) (par (l_levels l) (length envs))
          (par (l_attacks l) (length envs)) (par (l_decays l) (length envs)) (f_fs c)) as C; rewrite Q4 in C end.
        destruct C as [-> _]. reflexivity.
      - destruct Q3 as [Q3 Q4]. now apply timely_envelope in Q4. }
    destruct r; [eauto|eauto|contradiction].
  Qed.

  (** ** The queue *)
  Lemma late_loop_spec c : forall queue out cnt,
    Forall (fun m => (fst m < f_objects c)%nat /\ exists f, impulse_response c (fst m) (snd m) (repeat 0 (f_length c)) = Ok f) queue ->
    exists done rest fs, queue = done ++ rest /\ late_loop c queue out cnt = (MkLState rest (out ++ fs), Ok tt)
      /\ Forall2 (fun m p => fst p = fst m /\ impulse_response c (fst m) (snd m) (repeat 0 (f_length c)) = Ok (snd p)) done fs
      /\ length done = Nat.min (length queue) (Nat.max 1 (f_updates c - cnt)).
  Proof.
    induction queue as [|[i l] q IH]; intros out cnt H; cbn [late_loop].
    - exists [], [], []. split; [reflexivity|]. split; [now rewrite app_nil_r|]. split; [constructor|reflexivity].
    - inversion H as [|? ? [H1 (f & H2)] H3]; subst. cbn [fst snd] in *.
      destruct (Nat.leb_spec (f_objects c) i) as [K|K]; [lia|]. rewrite H2.
      destruct (Nat.leb_spec (f_updates c) (S cnt)) as [U|U].
      + exists [(i, l)], q, [(i, f)]. split; [reflexivity|]. split; [reflexivity|]. split; [constructor; [now split|constructor]|].
        cbn [length]. lia.
      + destruct (IH (out ++ [(i, f)]) (S cnt) H3) as (done & rest & fs & E1 & E2 & E3 & E4).
        exists ((i, l) :: done), rest, ((i, f) :: fs). split; [now rewrite E1|].
        split; [rewrite E2, <- app_assoc; reflexivity|]. split; [constructor; [now split|exact E3]|].
        cbn [length]. rewrite E4. lia.
  Qed.

(** ** The noise *)
Lemma nth_rows {X} (f : nat -> list X) w : (forall o, length (f o) = w) -> forall n s o b, (o < n)%nat -> (b < w)%nat ->
  nth_error (flat_map f (seq s n)) (o * w + b) = nth_error (f (s + o)%nat) b.
Proof.
  intros L. induction n as [|n IH]; intros s o b Ho Hb; [lia|]. cbn [seq flat_map].
  destruct o as [|o].
  - rewrite nth_error_app1 by (rewrite L; lia). now rewrite Nat.add_0_r.
  - rewrite nth_error_app2 by (rewrite L; nia). rewrite L. replace (S o * w + b - w)%nat with (o * w + b)%nat by nia.
    rewrite IH by lia. f_equal. f_equal. lia.
Qed.
Lemma rows_length {X} (f : nat -> list X) w : (forall o, length (f o) = w) -> forall l, length (flat_map f l) = (length l * w)%nat.
Proof. intros L. induction l; cbn; [reflexivity|]. rewrite app_length, L, IHl. reflexivity. Qed.

Lemma mix_zero c obj envs : forall b k, (forall e, In e envs -> val e k = 0) -> mix c obj b envs k = 0.
Proof.
  induction envs as [|e r IH]; intros b k H; cbn [mix]; [reflexivity|].
  rewrite IH by (intros e' He; apply H; now right). rewrite (H e) by now left. ring.
Qed.

(** Envelopes do not exceed their peak *)
Lemma peak_bound g x y : 0 <= x -> x <= 1 -> - g <= y <= g -> - g <= x * y <= g.
Proof.
  intros X0 X1 Y. pose proof (Rmult_le_pos x (y + g) X0 ltac:(lra)). pose proof (Rmult_le_pos x (g - y) X0 ltac:(lra)).
  pose proof (Rmult_le_pos (1 - x) g ltac:(lra) ltac:(lra)). lra.
Qed.
Lemma envelope_ramp n d a gain r e : is_envelope n d a gain r e -> forall i, (i <= a)%nat -> (0 < a)%nat ->
  val e (d + i) = INR i / INR a * gain.
Proof.
  intros (_ & _ & _ & E0 & E1 & _) i Hi Ha. assert (Na : INR a <> 0) by (apply not_0_INR; lia).
  induction i as [|i IH].
  - rewrite Nat.add_0_r, E0 by exact Ha. cbn [INR]. unfold Rdiv. ring.
  - replace (d + S i)%nat with (S (d + i)) by lia. rewrite E1 by lia. rewrite IH by lia. rewrite S_INR. unfold Rdiv. ring.
Qed.
Lemma envelope_bound n d a gain r e g : is_envelope n d a gain r e -> 0 <= r -> r <= 1 -> - g <= gain <= g ->
  forall k, - g <= val e k <= g.
Proof.
  intros E R0 R1 G0 k. pose proof (envelope_ramp _ _ _ _ _ _ E) as Ramp.
  destruct E as (L & F & Z0 & _ & _ & P & D).
  destruct (Nat.ltb_spec k d) as [K|K]; [rewrite Z0 by exact K; lra|].
  destruct (Nat.ltb_spec k (d + a)) as [K2|K2].
  - specialize (Ramp (k - d)%nat ltac:(lia) ltac:(lia)). replace (d + (k - d))%nat with k in Ramp by lia. rewrite Ramp.
    assert (Pa : 0 < INR a) by (apply lt_0_INR; lia).
    apply peak_bound; [| |exact G0].
    + apply Rmult_le_pos; [apply pos_INR|]. apply Rlt_le. now apply Rinv_0_lt_compat.
    + apply Rmult_le_reg_r with (INR a); [exact Pa|]. unfold Rdiv. rewrite Rmult_assoc, Rinv_l by lra.
      rewrite Rmult_1_r, Rmult_1_l. apply le_INR. lia.
  - destruct (Nat.ltb_spec k n) as [K3|K3]; [|rewrite val_out by lia; lra].
    assert (W : forall i, (d + a + i < n)%nat -> - g <= val e (d + a + i) <= g).
    { induction i as [|i IH]; intros Hi; [rewrite Nat.add_0_r, P; exact G0|].
      replace (d + a + S i)%nat with (S (d + a + i)) by lia. rewrite D by lia. apply peak_bound; auto. apply IH. lia. }
    replace k with (d + a + (k - d - a))%nat by lia. apply W. lia.
Qed.
Lemma is_filter_unique c obj l f f' : is_filter c obj l f -> is_filter c obj l f' -> f = f'.
Proof.
  intros [L (e & E1 & E2 & E3)] [L' (e' & E1' & E2' & E3')].
  assert (LL : length e = length e').
  { destruct (Nat.lt_trichotomy (length e) (length e')) as [H|[H|H]]; [|exact H|].
    - specialize (E1' _ H). destruct E2 as [E2|[_ E2]]; [|congruence]. destruct E2' as [E2'|[E2' _]]; lia.
    - specialize (E1 _ H). destruct E2' as [E2'|[_ E2']]; [|congruence]. destruct E2 as [E2|[E2 _]]; lia. }
  assert (EE : e = e').
  { apply (nth_ext _ _ [] []); [exact LL|]. intros b Hb. specialize (E1 b Hb). specialize (E1' b ltac:(lia)). congruence. }
  subst e'. apply val_ext; [congruence|]. intros k _. now rewrite E3, E3'.
Qed.

Lemma nth_error_combine_seq {X} (l : list X) : forall s n b x, (b < n)%nat -> nth_error l b = Some x ->
  nth_error (combine (seq s n) l) b = Some ((s + b)%nat, x).
Proof.
  induction l as [|y l IH]; intros s [|n] [|b] x Hb Hx; try discriminate; try lia; cbn in *.
  - injection Hx as ->. now rewrite Nat.add_0_r.
  - rewrite (IH (S s) n b x) by (try lia; exact Hx). do 2 f_equal. lia.
Qed.
