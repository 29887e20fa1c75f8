(** Specification and proofs for the gain fader, gain matrices and gain vectors. *)
From Coq Require Import QArith.Qcabs.
From Verif Require Import Base Num Memory RampModel RampProofs GainModel.
Local Open Scope Qc_scope.

(** ** Specification *)

(** Fraction of a linear transition over [steps] samples completed after [n] samples. *)
Definition progress (steps n : nat) : Qc :=
  if Nat.leb steps n then 1 else nq n / nq steps.
Definition between (a b r : Qc) : Qc := a + (b - a) * r.
Definition entry (m : matrix) (o i : nat) : Qc := nth i (nth o m []) 0.

(** An ideal mixing matrix: every crosspoint moves linearly from [id_start] to
    [id_target] within [steps] samples, [id_n] samples of which have passed. *)
Record ideal := MkIdeal {
  id_start : nat -> nat -> Qc;
  id_target : nat -> nat -> Qc;
  id_n : nat }.
Definition ideal_new (m : matrix) : ideal := MkIdeal (entry m) (entry m) 0.
Definition momentary (steps : nat) (s : ideal) (o i : nat) : Qc :=
  between (id_start s o i) (id_target s o i) (progress steps (id_n s)).
(** A new transition starts from the momentary gains. *)
Definition ideal_set (steps : nat) (s : ideal) (m : matrix) : ideal :=
  MkIdeal (momentary steps s) (entry m) 0.
Definition ideal_process (block : nat) (s : ideal) : ideal :=
  MkIdeal (id_start s) (id_target s) (id_n s + block).
(** Output [o] at sample [t] of the next block *)
Definition ideal_output (steps : nat) (s : ideal) (inputs : list (list Qc)) (o t : nat) : Qc :=
  qsum (map (fun i => between (id_start s o i) (id_target s o i)
                              (progress steps (id_n s + t + 1)) * entry inputs i t)
            (seq 0 (length inputs))).
Fixpoint ideal_run (block steps : nat) (s : ideal) (ops : list gm_op) : list (nat -> nat -> Qc) :=
  match ops with
  | [] => []
  | GSet m :: r => ideal_run block steps (ideal_set steps s m) r
  | GProcess x :: r => ideal_output steps s x :: ideal_run block steps (ideal_process block s) r
  end.

(** Well-formed calls: matrices of the right shape, full input blocks. *)
Definition op_ok (inputs outputs block : nat) (op : gm_op) : Prop :=
  match op with
  | GSet m => has_shape m outputs inputs = true
  | GProcess x => length x = inputs /\ Forall (fun l => length l = block) x
  end.

(** Whenever gains are set, every crosspoint has nothing to move, has completed its
    transition, or has moved by at least the threshold. *)
Fixpoint above_threshold (eps : Qc) (inputs outputs block steps : nat) (s : ideal)
         (ops : list gm_op) : Prop :=
  match ops with
  | [] => True
  | GSet m :: r =>
      (forall o i, (o < outputs)%nat -> (i < inputs)%nat ->
         id_start s o i = id_target s o i \/ (steps <= id_n s)%nat
         \/ eps <= qabs (momentary steps s o i - id_start s o i))
      /\ above_threshold eps inputs outputs block steps (ideal_set steps s m) r
  | GProcess _ :: r =>
      above_threshold eps inputs outputs block steps (ideal_process block s) r
  end.

(** The gain applied to input [i] in output [o] at sample [t] of the next block. *)
Definition gain_at (g : gm) (o i t : nat) : Qc :=
  between (entry (gm_prev g) o i) (entry (gm_next g) o i)
          (progress (f_samples (gm_fader g)) (gm_counter g * f_block (gm_fader g) + t + 1)).

(** ** Proofs *)

Lemma progress_full steps n : (steps <= n)%nat -> progress steps n = 1.
Proof. intros H. unfold progress. apply Nat.leb_le in H. rewrite H. reflexivity. Qed.

Lemma progress_part steps n : (n <= steps)%nat -> (0 < steps)%nat -> progress steps n = nq n / nq steps.
Proof.
  intros H H0. unfold progress. destruct (Nat.leb_spec steps n); [|reflexivity].
  assert (n = steps) by lia. subst. field. apply nq_neq_0. lia.
Qed.

Lemma between_1 a b : between a b 1 = b.
Proof. unfold between. ring. Qed.
Lemma between_0 a b : between a b 0 = a.
Proof. unfold between. ring. Qed.
Lemma between_same a r : between a a r = a.
Proof. unfold between. ring. Qed.

(** Number of periods: the least number of blocks covering the steps. *)
Lemma periods_spec block steps c : (0 < block)%nat ->
  ((steps + block - 1) / block <= c <-> steps <= c * block)%nat.
Proof.
  intros Hb. split; intros H.
  - pose proof (Nat.div_mod (steps + block - 1) block ltac:(lia)) as D.
    pose proof (Nat.mod_upper_bound (steps + block - 1) block ltac:(lia)) as M.
    set (q := ((steps + block - 1) / block)%nat) in *. nia.
  - apply Nat.lt_succ_r. apply Nat.div_lt_upper_bound; [lia|]. nia.
Qed.

(** The content of the ramp table. *)
Definition fader_ok (f : fader) : Prop :=
  (0 < f_block f)%nat
  /\ f_periods f = ((f_samples f + f_block f - 1) / f_block f)%nat
  /\ length (f_ramp f) = ((f_periods f + 1) * f_block f)%nat
  /\ (forall k, (k < length (f_ramp f))%nat ->
        nth_error (f_ramp f) k = Some (progress (f_samples f) (k + 1))).

Lemma nth_error_repeat' {A} (x : A) n k : (k < n)%nat -> nth_error (repeat x n) k = Some x.
Proof. revert k. induction n as [|n IH]; intros [|k] H; simpl; try lia; auto. apply IH; lia. Qed.

Lemma ramp_01 steps k : (k < steps)%nat ->
  nth_error (vector_ramp steps 0 1 false true) k = Some (progress steps (k + 1)).
Proof.
  intros H. destruct (ramp_equidistant steps 0 1 false true) as (L & step & Hs & Hn).
  { destruct (Nat.eq_dec steps 1); [right; split; [assumption|discriminate]|left; lia]. }
  rewrite Hn by lia. f_equal. rewrite progress_part by lia.
  change (b2n false) with 0%nat in Hs. change (b2n true) with 1%nat in Hs.
  replace (steps + 1 - 0 - 1)%nat with steps in Hs by lia.
  assert (step = 1 / nq steps).
  { apply (f_equal (fun x => x / nq steps)) in Hs.
    replace (step * nq steps / nq steps) with step in Hs by (field; apply nq_neq_0; lia).
    rewrite Hs. field. apply nq_neq_0; lia. }
  subst step. cbn [negb]. change (b2n true) with 1%nat. field. apply nq_neq_0; lia.
Qed.

Lemma fader_new_ok block steps : (0 < block)%nat ->
  exists f, fader_new block steps = Ok f /\ fader_ok f /\ f_block f = block /\ f_samples f = steps.
Proof.
  intros Hb. unfold fader_new. rewrite (proj2 (Nat.eqb_neq block 0)) by lia.
  set (periods := ((steps + block - 1) / block)%nat).
  assert (Hp : (steps <= periods * block)%nat) by (apply periods_spec; [lia|reflexivity]).
  set (size := ((periods + 1) * block)%nat).
  assert (Hsz : (steps + block <= size)%nat) by (unfold size; nia).
  assert (E1 : exists r1, (if Nat.ltb 0 periods
       then mem_write (repeat 0 size) 0 (vector_ramp steps 0 1 false true)
       else Ok (repeat 0 size)) = Ok r1 /\ length r1 = size
       /\ forall k, (k < steps)%nat -> nth_error r1 k = Some (progress steps (k + 1))).
  { destruct (Nat.ltb_spec 0 periods) as [Hq|Hq].
    - destruct (mem_write_ok (repeat 0 size) 0 (vector_ramp steps 0 1 false true))
        as (l' & E & L & N).
      { rewrite ramp_length, repeat_length. lia. }
      exists l'. rewrite repeat_length in L. split; [exact E|]. split; [exact L|].
      intros k Hk. rewrite N, ramp_length.
      rewrite (proj2 (Nat.leb_le 0 k)) by lia.
      rewrite (proj2 (Nat.ltb_lt k (0 + steps))) by lia. simpl andb.
      replace (k - 0)%nat with k by lia. apply ramp_01. exact Hk.
    - exists (repeat 0 size). rewrite repeat_length. split; [reflexivity|]. split; [reflexivity|].
      intros k Hk. nia. }
  destruct E1 as (r1 & -> & L1 & N1). cbn [bind].
  destruct (mem_write_ok r1 steps (repeat 1 (size - steps))) as (r2 & E2 & L2 & N2).
  { rewrite repeat_length. lia. }
  rewrite E2. cbn [bind]. eexists. split; [reflexivity|]. split; [|split; reflexivity].
  unfold fader_ok. cbn [f_block f_samples f_periods f_ramp].
  split; [lia|]. split; [reflexivity|]. split; [lia|].
  intros k Hk. rewrite N2, repeat_length.
  destruct (Nat.leb_spec steps k).
  - rewrite (proj2 (Nat.ltb_lt k (steps + (size - steps)))) by lia. cbn [andb].
    rewrite nth_error_repeat' by lia. rewrite progress_full by lia. reflexivity.
  - cbn [andb]. apply N1. lia.
Qed.

(** Progress in block [c], counted up to the end of the transition. *)
Lemma progress_sat block steps c t :
  (0 < block)%nat -> let p := ((steps + block - 1) / block)%nat in
  progress steps (Nat.min c p * block + t) = progress steps (c * block + t).
Proof.
  intros Hb p. destruct (Nat.le_gt_cases c p) as [H|H].
  - rewrite Nat.min_l by lia. reflexivity.
  - rewrite Nat.min_r by lia.
    assert (steps <= p * block)%nat by (apply periods_spec; [lia|reflexivity]).
    rewrite !progress_full by nia. reflexivity.
Qed.

Lemma mem_read_all {A} (l : list A) n : length l = n -> src_read l n = Ok l.
Proof.
  intros <-. unfold src_read, mem_read. simpl. rewrite Nat.leb_refl.
  rewrite firstn_all. reflexivity.
Qed.

Lemma nth_combine {A B} (a : list A) (b : list B) i x y :
  nth_error a i = Some x -> nth_error b i = Some y -> nth_error (combine a b) i = Some (x, y).
Proof.
  revert b i. induction a as [|u a IH]; intros [|v b] [|i] H1 H2; simpl in *; try discriminate.
  - congruence.
  - auto.
Qed.

Lemma fader_scale_ok f c p n x acc : fader_ok f ->
  length x = f_block f ->
  (forall a, acc = Some a -> length a = f_block f) ->
  exists o, fader_scale f x acc p n c = Ok o /\ length o = f_block f
    /\ forall t, (t < f_block f)%nat ->
       nth t o 0 = match acc with Some a => nth t a 0 | None => 0 end
         + between p n (progress (f_samples f) (c * f_block f + t + 1)) * nth t x 0.
Proof.
  intros (Hb & Hp & Hl & Hr) Hx Ha. unfold fader_scale, ramp_scaling.
  rewrite (mem_read_all x) by assumption. cbn [bind].
  set (c' := Nat.min c (f_periods f)).
  assert (Hc : (c' * f_block f + f_block f <= length (f_ramp f))%nat).
  { rewrite Hl. unfold c'. pose proof (Nat.le_min_r c (f_periods f)). nia. }
  destruct (mem_read_ok (skipn (c' * f_block f) (f_ramp f)) 0 (f_block f)) as (r & E & L & N).
  { rewrite skipn_length. lia. }
  unfold src_read at 1. rewrite E. cbn [bind].
  set (scaled := map _ _).
  assert (Ls : length scaled = f_block f).
  { unfold scaled. rewrite map_length, combine_length. lia. }
  assert (Ns : forall t, (t < f_block f)%nat -> nth t scaled 0
      = between p n (progress (f_samples f) (c * f_block f + t + 1)) * nth t x 0).
  { intros t Ht.
    assert (Er : nth_error r t = Some (progress (f_samples f) (c * f_block f + t + 1))).
    { rewrite N. rewrite (proj2 (Nat.ltb_lt _ _) Ht), nth_error_skipn, Nat.add_0_l, Hr by lia.
      f_equal. unfold c'. rewrite Hp.
      rewrite <- !Nat.add_assoc. apply progress_sat. exact Hb. }
    assert (Ex : nth_error x t = Some (nth t x 0)) by (apply nth_error_nth'; lia).
    apply nth_error_nth. unfold scaled.
    erewrite map_nth_error; [|apply nth_combine; [exact Ex|exact Er]].
    cbn [fst snd]. unfold between. reflexivity. }
  destruct acc as [a|].
  - rewrite (mem_read_all a) by (apply Ha; reflexivity). cbn [bind].
    eexists. split; [reflexivity|].
    assert (La : length a = f_block f) by (apply Ha; reflexivity).
    split; [rewrite map_length, combine_length; lia|].
    intros t Ht. apply nth_error_nth.
    erewrite map_nth_error; [|apply nth_combine; apply nth_error_nth'; lia].
    cbn [fst snd]. rewrite Ns by lia. reflexivity.
  - eexists. split; [reflexivity|]. split; [exact Ls|].
    intros t Ht. rewrite Ns by exact Ht. ring.
Qed.

Lemma mix_row_ok f c : fader_ok f -> forall gains xs acc,
  length xs = length gains -> Forall (fun l => length l = f_block f) xs ->
  (forall a, acc = Some a -> length a = f_block f) ->
  exists o, mix_row f c gains xs acc = Ok o /\ length o = f_block f
    /\ forall t, (t < f_block f)%nat ->
       nth t o 0 = match acc with Some a => nth t a 0 | None => 0 end
         + qsum (map (fun i => between (fst (nth i gains (0, 0))) (snd (nth i gains (0, 0)))
                                 (progress (f_samples f) (c * f_block f + t + 1))
                               * nth t (nth i xs []) 0)
                     (seq 0 (length xs))).
Proof.
  intros Hf. induction gains as [|[p n] gains IH]; intros [|x xs] acc Hl Hx Ha; try discriminate.
  - simpl. eexists. split; [reflexivity|]. destruct acc as [a|].
    + split; [apply Ha; reflexivity|]. intros t Ht. cbn. ring.
    + split; [apply repeat_length|]. intros t Ht.
      rewrite nth_repeat. cbn. ring.
  - apply Forall_cons_iff in Hx as [Hx Hxs].
    destruct (fader_scale_ok f c p n x acc Hf Hx Ha) as (o & Eo & Lo & No).
    destruct (IH xs (Some o)) as (o' & Eo' & Lo' & No').
    { simpl in Hl. lia. } { assumption. } { intros a E. injection E as <-. exact Lo. }
    exists o'. cbn [mix_row]. rewrite Eo. cbn [bind]. split; [exact Eo'|]. split; [exact Lo'|].
    intros t Ht. rewrite No', No by lia.
    change (length (x :: xs)) with (S (length xs)). rewrite <- cons_seq. cbn [map qsum nth].
    rewrite <- seq_shift, map_map. cbn [fst snd nth]. ring.
Qed.

Definition gm_ok (g : gm) : Prop :=
  fader_ok (gm_fader g)
  /\ has_shape (gm_prev g) (gm_outputs g) (gm_inputs g) = true
  /\ has_shape (gm_next g) (gm_outputs g) (gm_inputs g) = true
  /\ (gm_counter g <= f_periods (gm_fader g))%nat.

Lemma shape_spec m rows cols : has_shape m rows cols = true ->
  length m = rows /\ forall o, (o < rows)%nat -> length (nth o m []) = cols.
Proof.
  unfold has_shape. intros H. apply andb_prop in H as [H1 H2].
  apply Nat.eqb_eq in H1. split; [exact H1|]. intros o Ho.
  rewrite forallb_forall in H2. apply Nat.eqb_eq. apply H2. apply nth_In. lia.
Qed.
Lemma shape_intro m rows cols : length m = rows ->
  (forall o, (o < rows)%nat -> length (nth o m []) = cols) -> has_shape m rows cols = true.
Proof.
  intros H1 H2. unfold has_shape. rewrite H1, Nat.eqb_refl. simpl. apply forallb_forall.
  intros r Hr. apply Nat.eqb_eq. destruct (In_nth m r [] Hr) as (o & Ho & <-). apply H2. lia.
Qed.

Lemma map_res_nth' {X Y} (f : X -> res Y) (l : list X) dx dy (P : nat -> Y -> Prop) :
  (forall k, (k < length l)%nat -> exists y, f (nth k l dx) = Ok y /\ P k y) ->
  exists ys, map_res f l = Ok ys /\ length ys = length l
             /\ forall k, (k < length l)%nat -> P k (nth k ys dy).
Proof.
  revert P. induction l as [|x l IH]; intros P H.
  - exists []. split; [reflexivity|]. split; [reflexivity|]. intros k Hk. simpl in Hk. lia.
  - destruct (H 0%nat ltac:(simpl; lia)) as (y & Ey & Py).
    destruct (IH (fun k => P (S k))) as (ys & Eys & Lys & Nys).
    { intros k Hk. apply (H (S k)). simpl. lia. }
    exists (y :: ys). simpl in Ey. simpl. rewrite Ey. cbn [bind]. rewrite Eys. cbn [bind].
    split; [reflexivity|]. split; [lia|]. intros [|k] Hk; [exact Py|]. apply Nys. lia.
Qed.

Lemma gm_process_ok g x : gm_ok g ->
  length x = gm_inputs g -> Forall (fun l => length l = f_block (gm_fader g)) x ->
  exists g' out, gm_process g x = Ok (g', out) /\ gm_ok g'
    /\ gm_prev g' = gm_prev g /\ gm_next g' = gm_next g /\ gm_fader g' = gm_fader g
    /\ gm_outputs g' = gm_outputs g /\ gm_inputs g' = gm_inputs g
    /\ gm_counter g' = Nat.min (S (gm_counter g)) (f_periods (gm_fader g))
    /\ length out = gm_outputs g
    /\ forall o, (o < gm_outputs g)%nat ->
         length (nth o out []) = f_block (gm_fader g)
         /\ forall t, (t < f_block (gm_fader g))%nat ->
            entry out o t = qsum (map (fun i => gain_at g o i t * entry x i t)
                                      (seq 0 (gm_inputs g))).
Proof.
  intros (Hf & Hp & Hn & Hc) Hx Hxs. unfold gm_process, process_audio.
  destruct (shape_spec _ _ _ Hp) as [Lp Rp]. destruct (shape_spec _ _ _ Hn) as [Ln Rn].
  destruct (map_res_nth' (fun rows => mix_row (gm_fader g) (gm_counter g)
              (combine (fst rows) (snd rows)) x None)
              (combine (gm_prev g) (gm_next g)) ([], []) []
              (fun o l => length l = f_block (gm_fader g)
                 /\ forall t, (t < f_block (gm_fader g))%nat ->
            nth t l 0 = qsum (map (fun i => gain_at g o i t * entry x i t)
                                      (seq 0 (gm_inputs g)))))
    as (ys & E & L & N).
  { intros o Ho. rewrite combine_length in Ho. rewrite combine_nth by lia. cbn [fst snd].
    destruct (mix_row_ok (gm_fader g) (gm_counter g) Hf
       (combine (nth o (gm_prev g) []) (nth o (gm_next g) [])) x None) as (y & Ey & Ly & Ny).
    { rewrite combine_length, Rp, Rn by lia. lia. } { assumption. } { discriminate. }
    exists y. split; [exact Ey|]. split; [exact Ly|]. intros t Ht. rewrite Ny by exact Ht.
    rewrite Qcplus_0_l. rewrite Hx. f_equal. apply map_ext_in. intros i Hi. apply in_seq in Hi.
    rewrite combine_nth by (rewrite Rp, Rn by lia; reflexivity). cbn [fst snd].
    unfold gain_at, entry. reflexivity. }
  rewrite E. cbn [bind]. eexists _, ys. split; [reflexivity|].
  rewrite combine_length in L, N.
  assert (C : (if Nat.ltb (gm_counter g) (f_periods (gm_fader g)) then S (gm_counter g) else gm_counter g)
              = Nat.min (S (gm_counter g)) (f_periods (gm_fader g))).
  { destruct (Nat.ltb_spec (gm_counter g) (f_periods (gm_fader g))); lia. }
  unfold gm_ok. cbn [gm_prev gm_next gm_fader gm_outputs gm_inputs gm_counter].
  rewrite C. split; [split; [assumption|]; split; [assumption|]; split; [assumption|lia]|].
  do 6 (split; [reflexivity|]). split; [lia|].
  intros o Ho. apply N. lia.
Qed.

Lemma nth_map_combine {A B C} (f : A * B -> C) a b i da db dc :
  (i < length a)%nat -> length a = length b ->
  nth i (map f (combine a b)) dc = f (nth i a da, nth i b db).
Proof.
  intros H L. rewrite nth_indep with (d' := f (da, db)).
  - rewrite map_nth, combine_nth by exact L. reflexivity.
  - rewrite map_length, combine_length. lia.
Qed.

(** The gain reached when new gains are set. *)
Definition reached (g : gm) (o i : nat) : Qc :=
  between (entry (gm_prev g) o i) (entry (gm_next g) o i)
          (progress (f_samples (gm_fader g)) (gm_counter g * f_block (gm_fader g))).

Lemma gm_set_ok eps g m : gm_ok g -> has_shape m (gm_outputs g) (gm_inputs g) = true ->
  exists g', gm_set eps g m = Ok g' /\ gm_ok g' /\ gm_next g' = m /\ gm_counter g' = 0%nat
    /\ gm_fader g' = gm_fader g /\ gm_outputs g' = gm_outputs g /\ gm_inputs g' = gm_inputs g
    /\ forall o i, (o < gm_outputs g)%nat -> (i < gm_inputs g)%nat ->
         entry (gm_prev g') o i =
           (if qle eps (qabs (reached g o i - entry (gm_prev g) o i)) then reached g o i
            else entry (gm_next g) o i).
Proof.
  intros (Hf & Hp & Hn & Hc) Hm. unfold gm_set. rewrite Hm. eexists. split; [reflexivity|].
  destruct (shape_spec _ _ _ Hp) as [Lp Rp]. destruct (shape_spec _ _ _ Hn) as [Ln Rn].
  pose proof Hf as (Hb & Hpp & _ & _).
  unfold set_gains_internal, gm_ok. cbn [gm_prev gm_next gm_fader gm_outputs gm_inputs gm_counter].
  set (fin := Nat.leb (f_periods (gm_fader g)) (gm_counter g)).
  set (prev := if fin then _ else _).
  assert (Hprev : has_shape prev (gm_outputs g) (gm_inputs g) = true /\
    forall o i, (o < gm_outputs g)%nat -> (i < gm_inputs g)%nat ->
         entry prev o i =
           (if qle eps (qabs (reached g o i - entry (gm_prev g) o i)) then reached g o i
            else entry (gm_next g) o i)).
  { unfold prev, fin. destruct (Nat.leb_spec (f_periods (gm_fader g)) (gm_counter g)) as [H|H].
    - split; [assumption|]. intros o i Ho Hi.
      assert (R : reached g o i = entry (gm_next g) o i).
      { unfold reached. rewrite progress_full, between_1; [reflexivity|].
        apply periods_spec; [exact Hb|]. rewrite <- Hpp. exact H. }
      rewrite R. destruct (qle _ _); reflexivity.
    - assert (Hlt : (gm_counter g * f_block (gm_fader g) < f_samples (gm_fader g))%nat).
      { apply Nat.nle_gt. rewrite <- periods_spec by exact Hb. rewrite <- Hpp. lia. }
      set (ratio := if qlt _ 1 then _ else 1).
      assert (Er : ratio = progress (f_samples (gm_fader g)) (gm_counter g * f_block (gm_fader g))).
      { rewrite progress_part by lia. unfold ratio.
        assert (nq (gm_counter g * f_block (gm_fader g)) / nq (f_samples (gm_fader g)) < 1) as Hq.
        { apply qdiv_lt; [apply nq_pos; lia|]. rewrite Qcmult_1_l. apply nq_lt. exact Hlt. }
        destruct (qlt_spec (nq (gm_counter g * f_block (gm_fader g)) / nq (f_samples (gm_fader g))) 1);
          [reflexivity|contradiction]. }
      split.
      + apply shape_intro.
        * rewrite map_length, combine_length. lia.
        * intros o Ho. rewrite nth_map_combine with (da := []) (db := []) by lia. cbn [fst snd].
          rewrite map_length, combine_length, Rp, Rn by lia. lia.
      + intros o i Ho Hi. unfold entry at 1.
        rewrite nth_map_combine with (da := []) (db := []) by lia. cbn [fst snd].
        rewrite nth_map_combine with (da := 0) (db := 0) by (rewrite ?Rp, ?Rn by lia; lia).
        unfold update_previous. cbn [fst snd].
        change (nth i (nth o (gm_prev g) []) 0) with (entry (gm_prev g) o i).
        change (nth i (nth o (gm_next g) []) 0) with (entry (gm_next g) o i).
        rewrite Er. unfold reached, between.
        replace (entry (gm_prev g) o i + (entry (gm_next g) o i - entry (gm_prev g) o i) *
          progress (f_samples (gm_fader g)) (gm_counter g * f_block (gm_fader g)) - entry (gm_prev g) o i)
        with (progress (f_samples (gm_fader g)) (gm_counter g * f_block (gm_fader g)) *
          (entry (gm_next g) o i - entry (gm_prev g) o i)) by ring.
        destruct (qle _ _); [ring|reflexivity]. }
  destruct Hprev as [S V].
  split; [split; [assumption|]; split; [assumption|]; split; [assumption|lia]|].
  do 5 (split; [reflexivity|]). exact V.
Qed.

(** *** Refinement of the ideal matrix *)

Definition refines (g : gm) (s : ideal) : Prop :=
  gm_ok g
  /\ (forall o i, (o < gm_outputs g)%nat -> (i < gm_inputs g)%nat ->
        entry (gm_prev g) o i = id_start s o i /\ entry (gm_next g) o i = id_target s o i)
  /\ (id_n s = (gm_counter g * f_block (gm_fader g))%nat
      \/ (gm_counter g = f_periods (gm_fader g)
          /\ (f_periods (gm_fader g) * f_block (gm_fader g) <= id_n s)%nat)).

Lemma refines_progress g s t : refines g s ->
  progress (f_samples (gm_fader g)) (gm_counter g * f_block (gm_fader g) + t)
  = progress (f_samples (gm_fader g)) (id_n s + t).
Proof.
  intros ((Hf & _) & _ & [E|[E L]]); [rewrite E; reflexivity|].
  destruct Hf as (Hb & Hp & _).
  assert (f_samples (gm_fader g) <= f_periods (gm_fader g) * f_block (gm_fader g))%nat
    by (apply periods_spec; [exact Hb|rewrite Hp; reflexivity]).
  rewrite E. rewrite !progress_full by lia. reflexivity.
Qed.

Lemma refines_process g s x g' out : refines g s ->
  length x = gm_inputs g -> Forall (fun l => length l = f_block (gm_fader g)) x ->
  gm_process g x = Ok (g', out) ->
  refines g' (ideal_process (f_block (gm_fader g)) s)
  /\ length out = gm_outputs g
  /\ (forall o, (o < gm_outputs g)%nat -> length (nth o out []) = f_block (gm_fader g))
  /\ forall o t, (o < gm_outputs g)%nat -> (t < f_block (gm_fader g))%nat ->
       entry out o t = ideal_output (f_samples (gm_fader g)) s x o t.
Proof.
  intros R Hx Hxs E. pose proof R as (Hok & Hv & Hn).
  destruct (gm_process_ok g x Hok Hx Hxs)
    as (g1 & o1 & E1 & Hok1 & Ep & En & Ef & Eo & Ei & Ec & Lo & Ho).
  assert (g1 = g' /\ o1 = out) as [-> ->] by (split; congruence).
  split.
  - split; [exact Hok1|]. rewrite Ep, En, Eo, Ei, Ef, Ec. split; [exact Hv|].
    unfold ideal_process. cbn [id_n]. destruct Hok as (_ & _ & _ & Hc).
    destruct Hn as [Hn|[Hn1 Hn2]].
    + destruct (Nat.le_gt_cases (f_periods (gm_fader g)) (gm_counter g)).
      * right. split; [lia|]. assert (gm_counter g = f_periods (gm_fader g)) by lia. nia.
      * left. rewrite Nat.min_l by lia. lia.
    + right. split; lia.
  - split; [exact Lo|]. split; [intros o Hoo; apply Ho; exact Hoo|].
    intros o t Hoo Ht. destruct (Ho o Hoo) as [_ H]. rewrite H by exact Ht.
    unfold ideal_output. rewrite Hx. f_equal. apply map_ext_in. intros i Hi. apply in_seq in Hi.
    destruct (Hv o i Hoo ltac:(lia)) as [V1 V2]. unfold gain_at. rewrite V1, V2.
    rewrite <- !Nat.add_assoc. rewrite (refines_progress g s (t + 1) R). reflexivity.
Qed.

Lemma refines_set eps g s m g' : refines g s -> gm_set eps g m = Ok g' ->
  (forall o i, (o < gm_outputs g)%nat -> (i < gm_inputs g)%nat ->
     id_start s o i = id_target s o i \/ (f_samples (gm_fader g) <= id_n s)%nat
     \/ eps <= qabs (momentary (f_samples (gm_fader g)) s o i - id_start s o i)) ->
  refines g' (ideal_set (f_samples (gm_fader g)) s m)
  /\ gm_outputs g' = gm_outputs g /\ gm_inputs g' = gm_inputs g /\ gm_fader g' = gm_fader g.
Proof.
  intros R E T. pose proof R as (Hok & Hv & Hn).
  assert (Hm : has_shape m (gm_outputs g) (gm_inputs g) = true).
  { unfold gm_set in E. destruct (has_shape m (gm_outputs g) (gm_inputs g)); [reflexivity|discriminate]. }
  destruct (gm_set_ok eps g m Hok Hm) as (g1 & E1 & Hok1 & En & Ec & Ef & Eo & Ei & V).
  assert (g1 = g') by congruence. subst g1.
  split; [|split; [|split]; assumption].
  split; [exact Hok1|]. rewrite Eo, Ei, Ef, Ec, En. split; [|left; reflexivity].
  intros o i Ho Hi. split; [|reflexivity]. rewrite V by assumption. cbn [ideal_set id_start].
  destruct (Hv o i Ho Hi) as [V1 V2].
  assert (Er : reached g o i = momentary (f_samples (gm_fader g)) s o i).
  { unfold reached, momentary. rewrite V1, V2.
    pose proof (refines_progress g s 0 R) as P. rewrite !Nat.add_0_r in P. rewrite P. reflexivity. }
  rewrite Er. destruct (qle_spec eps (qabs (momentary (f_samples (gm_fader g)) s o i - entry (gm_prev g) o i)))
    as [Q|Q]; [reflexivity|].
  rewrite V2. unfold momentary. destruct (T o i Ho Hi) as [T1|[T1|T1]].
  - rewrite T1, between_same. reflexivity.
  - rewrite progress_full, between_1 by exact T1. reflexivity.
  - rewrite V1 in Q. contradiction.
Qed.

Definition block_matches (outputs block : nat) (out : list (list Qc)) (f : nat -> nat -> Qc) : Prop :=
  length out = outputs
  /\ (forall o, (o < outputs)%nat -> length (nth o out []) = block)
  /\ forall o t, (o < outputs)%nat -> (t < block)%nat -> entry out o t = f o t.

Lemma run_refines eps ops : forall g s, refines g s ->
  Forall (op_ok (gm_inputs g) (gm_outputs g) (f_block (gm_fader g))) ops ->
  above_threshold eps (gm_inputs g) (gm_outputs g) (f_block (gm_fader g))
                  (f_samples (gm_fader g)) s ops ->
  exists g' outs, gm_run eps g ops = Ok (g', outs)
    /\ Forall2 (block_matches (gm_outputs g) (f_block (gm_fader g))) outs
               (ideal_run (f_block (gm_fader g)) (f_samples (gm_fader g)) s ops).
Proof.
  induction ops as [|[m|x] ops IH]; intros g s R Hops Ht.
  - exists g, []. split; [reflexivity|constructor].
  - apply Forall_cons_iff in Hops as [Hm Hops]. destruct Ht as [Ht1 Ht2].
    destruct (gm_set_ok eps g m (proj1 R) Hm) as (g1 & E1 & _).
    destruct (refines_set eps g s m g1 R E1 Ht1) as (R1 & Eo & Ei & Ef).
    destruct (IH g1 _ R1) as (g2 & outs & E2 & F).
    + rewrite Eo, Ei, Ef. exact Hops.
    + rewrite Eo, Ei, Ef. exact Ht2.
    + exists g2, outs. cbn [gm_run]. rewrite E1. cbn [bind]. split; [exact E2|].
      rewrite Eo, Ef in F. exact F.
  - apply Forall_cons_iff in Hops as [[Hx1 Hx2] Hops]. cbn in Ht.
    destruct (gm_process_ok g x (proj1 R) Hx1 Hx2)
      as (g1 & o1 & E1 & _ & _ & _ & Ef & Eo & Ei & _).
    destruct (refines_process g s x g1 o1 R Hx1 Hx2 E1) as (R1 & L1 & L2 & M).
    destruct (IH g1 _ R1) as (g2 & outs & E2 & F).
    + rewrite Eo, Ei, Ef. exact Hops.
    + rewrite Eo, Ei, Ef. exact Ht.
    + exists g2, (o1 :: outs). cbn [gm_run]. rewrite E1. cbn [bind]. rewrite E2. cbn [bind].
      split; [reflexivity|]. cbn [ideal_run]. constructor.
      * split; [exact L1|]. split; [exact L2|exact M].
      * rewrite Eo, Ef in F. exact F.
Qed.

Lemma new_refines inputs outputs block steps m g :
  gm_new_matrix inputs outputs block steps m = Ok g ->
  refines g (ideal_new m) /\ gm_inputs g = inputs /\ gm_outputs g = outputs
  /\ f_block (gm_fader g) = block /\ f_samples (gm_fader g) = steps /\ (0 < block)%nat
  /\ gm_prev g = m /\ gm_next g = m /\ gm_counter g = 0%nat.
Proof.
  unfold gm_new_matrix. destruct (Nat.eq_dec block 0) as [->|Hb]; [discriminate|].
  destruct (fader_new_ok block steps ltac:(lia)) as (f & -> & Hf & Eb & Es).
  cbn [bind]. destruct (has_shape m outputs inputs) eqn:Hm; [|discriminate].
  intros E. injection E as <-. cbn [gm_inputs gm_outputs gm_fader gm_prev gm_next gm_counter].
  split; [|repeat (split; [try reflexivity; try assumption; lia|]); reflexivity].
  split; [split; [exact Hf|split; [exact Hm|split; [exact Hm|cbn; lia]]]|].
  split; [|left; reflexivity]. intros o i _ _. split; reflexivity.
Qed.

Lemma gm_new_is_matrix inputs outputs block steps v :
  gm_new inputs outputs block steps v
  = gm_new_matrix inputs outputs block steps (repeat (repeat v inputs) outputs).
Proof.
  unfold gm_new, gm_new_matrix. destruct (fader_new block steps) as [f| |]; cbn [bind]; try reflexivity.
  rewrite shape_intro; [reflexivity|apply repeat_length|].
  intros o Ho. rewrite nth_indep with (d' := repeat v inputs) by (rewrite repeat_length; exact Ho).
  rewrite nth_repeat. apply repeat_length.
Qed.

Lemma gain_tracks_ideal inputs outputs block steps m eps g ops :
  gm_new_matrix inputs outputs block steps m = Ok g ->
  Forall (op_ok inputs outputs block) ops ->
  above_threshold eps inputs outputs block steps (ideal_new m) ops ->
  exists g' outs, gm_run eps g ops = Ok (g', outs)
    /\ Forall2 (block_matches outputs block) outs (ideal_run block steps (ideal_new m) ops).
Proof.
  intros E Hops Ht. destruct (new_refines _ _ _ _ _ _ E) as (R & Ei & Eo & Eb & Es & _).
  pose proof (run_refines eps ops g _ R) as H. rewrite Ei, Eo, Eb, Es in H. auto.
Qed.

(** *** States reached by any calls *)

Lemma run_ok eps ops : forall g, gm_ok g ->
  Forall (op_ok (gm_inputs g) (gm_outputs g) (f_block (gm_fader g))) ops ->
  exists g' outs, gm_run eps g ops = Ok (g', outs) /\ gm_ok g' /\ gm_fader g' = gm_fader g
    /\ gm_inputs g' = gm_inputs g /\ gm_outputs g' = gm_outputs g.
Proof.
  induction ops as [|[m|x] ops IH]; intros g R Hops.
  - exists g, []. repeat (split; [first [reflexivity|exact R]|]). reflexivity.
  - apply Forall_cons_iff in Hops as [Hm Hops].
    destruct (gm_set_ok eps g m R Hm) as (g1 & E1 & R1 & _ & _ & Ef & Eo & Ei & _).
    destruct (IH g1 R1) as (g2 & outs & E2 & R2 & F1 & F2 & F3).
    + rewrite Eo, Ei, Ef. exact Hops.
    + exists g2, outs. cbn [gm_run]. rewrite E1. cbn [bind]. split; [exact E2|].
      split; [exact R2|]. split; [congruence|]. split; congruence.
  - apply Forall_cons_iff in Hops as [[Hx1 Hx2] Hops].
    destruct (gm_process_ok g x R Hx1 Hx2)
      as (g1 & o1 & E1 & R1 & _ & _ & Ef & Eo & Ei & _).
    destruct (IH g1 R1) as (g2 & outs & E2 & R2 & F1 & F2 & F3).
    + rewrite Eo, Ei, Ef. exact Hops.
    + exists g2, (o1 :: outs). cbn [gm_run]. rewrite E1. cbn [bind]. rewrite E2. cbn [bind].
      split; [reflexivity|]. split; [exact R2|]. split; [congruence|]. split; congruence.
Qed.

(** [g] is a state reached from the constructor by well-formed calls. *)
Definition gm_reachable (eps : Qc) (inputs outputs block steps : nat) (g : gm) : Prop :=
  exists m g0 ops outs,
    gm_new_matrix inputs outputs block steps m = Ok g0
    /\ Forall (op_ok inputs outputs block) ops
    /\ gm_run eps g0 ops = Ok (g, outs).

Lemma reachable_ok eps inputs outputs block steps g :
  gm_reachable eps inputs outputs block steps g ->
  gm_ok g /\ gm_inputs g = inputs /\ gm_outputs g = outputs
  /\ f_block (gm_fader g) = block /\ f_samples (gm_fader g) = steps /\ (0 < block)%nat.
Proof.
  intros (m & g0 & ops & outs & E & Hops & Hr).
  destruct (new_refines _ _ _ _ _ _ E) as (R & Ei & Eo & Eb & Es & Hb & _).
  destruct (run_ok eps ops g0 (proj1 R)) as (g1 & o1 & E1 & R1 & F1 & F2 & F3).
  { rewrite Ei, Eo, Eb. exact Hops. }
  assert (g1 = g) by congruence. subst g1. rewrite F1, F2, F3. split; [exact R1|]. auto.
Qed.

Lemma reachable_output eps inputs outputs block steps g x :
  gm_reachable eps inputs outputs block steps g ->
  op_ok inputs outputs block (GProcess x) ->
  exists g' out, gm_process g x = Ok (g', out)
    /\ gm_reachable eps inputs outputs block steps g'
    /\ block_matches outputs block out
         (fun o t => qsum (map (fun i => gain_at g o i t * entry x i t) (seq 0 inputs))).
Proof.
  intros R [H1 H2]. destruct (reachable_ok _ _ _ _ _ _ R) as (Hok & Ei & Eo & Eb & Es & _).
  destruct (gm_process_ok g x Hok) as (g' & out & E & _ & _ & _ & _ & _ & _ & _ & L & V).
  { congruence. } { rewrite Eb. exact H2. }
  exists g', out. split; [exact E|]. split.
  - destruct R as (m & g0 & ops & outs & E0 & Hops & Hr).
    exists m, g0, (ops ++ [GProcess x]), (outs ++ [out]). split; [exact E0|]. split.
    + apply Forall_app. split; [exact Hops|]. constructor; [split; assumption|constructor].
    + clear - Hr E. revert g0 outs Hr. induction ops as [|[mm|xx] ops IH]; intros g0 outs Hr; cbn [gm_run app] in *.
      * injection Hr as -> <-. rewrite E. reflexivity.
      * destruct (gm_set eps g0 mm) as [g1| |]; cbn [bind] in *; try discriminate. apply IH. exact Hr.
      * destruct (gm_process g0 xx) as [[g1 o1]| |]; cbn [bind] in *; try discriminate.
        destruct (gm_run eps g1 ops) as [[g2 o2]| |] eqn:Er; cbn [bind] in Hr; try discriminate.
        injection Hr as -> <-. rewrite (IH g1 o2 Er). cbn [bind]. reflexivity.
  - rewrite Eo, Eb, Ei in *. split; [exact L|]. split; [intros o Ho; apply V; exact Ho|].
    intros o t Ho Ht. apply V; assumption.
Qed.

Lemma qabs_Qcabs q : qabs q = Qcabs q.
Proof.
  unfold qabs. destruct (qlt_spec q 0) as [H|H].
  - symmetry. apply Qcabs_neg. now apply Qclt_le_weak.
  - symmetry. apply Qcabs_pos. now apply Qcnot_lt_le.
Qed.
Lemma qabs_nonneg q : 0 <= qabs q.
Proof. rewrite qabs_Qcabs. apply Qcabs_nonneg. Qed.
Lemma qabs_mult a b : qabs (a * b) = qabs a * qabs b.
Proof. rewrite !qabs_Qcabs. apply Qcabs_Qcmult. Qed.
Lemma qabs_pos a : 0 <= a -> qabs a = a.
Proof. intros H. rewrite qabs_Qcabs. now apply Qcabs_pos. Qed.
Lemma qabs_0 : qabs 0 = 0.
Proof. reflexivity. Qed.

Lemma progress_range steps n : 0 <= progress steps n /\ progress steps n <= 1.
Proof.
  unfold progress. destruct (Nat.leb_spec steps n) as [H|H].
  - split; [discriminate|apply Qcle_refl].
  - assert (P : 0 < nq steps) by (apply nq_pos; lia). split.
    + apply qmult_nonneg; [apply nq_nonneg|]. apply Qclt_le_weak, qinv_pos, P.
    + apply qdiv_le; [exact P|]. rewrite Qcmult_1_l. apply nq_le. lia.
Qed.

Lemma transition_start eps g x m g1 out g2 o i :
  0 <= eps -> gm_ok g -> length x = gm_inputs g ->
  Forall (fun l => length l = f_block (gm_fader g)) x ->
  gm_process g x = Ok (g1, out) -> gm_set eps g1 m = Ok g2 ->
  (o < gm_outputs g)%nat -> (i < gm_inputs g)%nat ->
  let last := gain_at g o i (f_block (gm_fader g) - 1) in
  let start := entry (gm_prev g2) o i in
  (start = last \/ (start = entry (gm_next g) o i
     /\ qabs (last - entry (gm_prev g) o i) < eps
     /\ qabs (start - last) * nq (f_block (gm_fader g)) <= eps * nq (f_samples (gm_fader g)))).
Proof.
  intros He Hok Hx Hxs E1 E2 Ho Hi last start.
  destruct (gm_process_ok g x Hok Hx Hxs)
    as (g' & o1 & E1' & Hok1 & Ep & En & Ef & Eo & Ei & Ec & _).
  assert (g' = g1) by congruence. subst g'.
  assert (Hm : has_shape m (gm_outputs g1) (gm_inputs g1) = true).
  { unfold gm_set in E2. destruct (has_shape m (gm_outputs g1) (gm_inputs g1)); [reflexivity|discriminate]. }
  destruct (gm_set_ok eps g1 m Hok1 Hm) as (g3 & E3 & _ & _ & _ & _ & _ & _ & V).
  assert (g3 = g2) by congruence. subst g3.
  rewrite Eo, Ei in V. specialize (V o i Ho Hi). fold start in V.
  destruct Hok as ((Hb & Hp & _) & _ & _ & Hc).
  set (B := f_block (gm_fader g)) in *. set (T := f_samples (gm_fader g)) in *.
  set (P := f_periods (gm_fader g)) in *.
  assert (Er : reached g1 o i = last).
  { unfold reached, last, gain_at. rewrite Ep, En, Ef, Ec. fold B T P. f_equal.
    pose proof (progress_sat B T (S (gm_counter g)) 0 Hb) as S0. cbn zeta in S0.
    rewrite <- Hp in S0. rewrite !Nat.add_0_r in S0. rewrite S0.
    f_equal. lia. }
  rewrite Er, Ep, En in V.
  destruct (qle_spec eps (qabs (last - entry (gm_prev g) o i))) as [Q|Q]; [left; exact V|right].
  split; [exact V|]. split; [now apply Qcnot_le_lt|]. rewrite V.
  set (p := entry (gm_prev g) o i) in *. set (n := entry (gm_next g) o i) in *.
  assert (El : last = between p n (progress T (S (gm_counter g) * B))).
  { unfold last, gain_at. fold B T p n. f_equal. f_equal. lia. }
  assert (Hnn : 0 <= eps * nq T) by (apply qmult_nonneg; [exact He|apply nq_nonneg]).
  destruct (Nat.le_gt_cases T (S (gm_counter g) * B)) as [HT|HT].
  - rewrite El, progress_full, between_1 by exact HT.
    replace (n - n) with 0 by ring. rewrite qabs_0, Qcmult_0_l. exact Hnn.
  - assert (PT : 0 < nq T) by (apply nq_pos; lia).
    rewrite progress_part in El by lia.
    set (r := nq (S (gm_counter g) * B) / nq T) in *.
    assert (Hr : 0 <= r /\ r <= 1).
    { pose proof (progress_range T (S (gm_counter g) * B)) as PR.
      rewrite progress_part in PR by lia. exact PR. }
    destruct Hr as [Hr0 Hr1].
    assert (D1 : last - p = (n - p) * r) by (rewrite El; unfold between; ring).
    assert (D2 : n - last = (n - p) * (1 - r)) by (rewrite El; unfold between; ring).
    rewrite D1, qabs_mult, (qabs_pos r Hr0) in Q. apply Qcnot_le_lt in Q.
    rewrite D2, qabs_mult, (qabs_pos (1 - r)) by (clear - Hr1; qclra).
    pose proof (qabs_nonneg (n - p)) as Ha. set (a := qabs (n - p)) in *.
    assert (Hrt : r * nq T = nq (S (gm_counter g) * B)).
    { unfold r. field. intros Z0. rewrite Z0 in PT. discriminate PT. }
    assert (S1 : a * (1 - r) <= a).
    { assert (0 <= a * r) by (apply qmult_nonneg; assumption).
      replace (a * (1 - r)) with (a - a * r) by ring. clear - H. qclra. }
    apply Qcle_trans with (a * nq B).
    { apply Qcmult_le_compat_r; [exact S1|apply nq_nonneg]. }
    apply Qcle_trans with (a * nq (S (gm_counter g) * B)).
    { rewrite (Qcmult_comm a (nq B)), (Qcmult_comm a).
      apply Qcmult_le_compat_r; [apply nq_le; nia|exact Ha]. }
    rewrite <- Hrt. rewrite Qcmult_assoc.
    apply Qcmult_le_compat_r; [now apply Qclt_le_weak|apply nq_nonneg].
Qed.

(** Change of the gain from one sample to the next. *)
Lemma progress_step steps n : (0 < steps)%nat ->
  0 <= progress steps (S n) - progress steps n
  /\ progress steps (S n) - progress steps n <= 1 / nq steps.
Proof.
  intros H. assert (P : 0 < nq steps) by (apply nq_pos; exact H).
  pose proof (qinv_pos _ P) as I.
  assert (I' : 0 <= 1 / nq steps) by (unfold Qcdiv; rewrite Qcmult_1_l; now apply Qclt_le_weak).
  destruct (Nat.le_gt_cases steps n).
  - rewrite !progress_full by lia. split; [discriminate|]. replace (1 - 1) with 0 by ring. exact I'.
  - rewrite !progress_part by lia. rewrite nq_S.
    replace ((nq n + 1) / nq steps - nq n / nq steps) with (1 / nq steps).
    + split; [exact I'|apply Qcle_refl].
    + field. intros Z0. rewrite Z0 in P. discriminate P.
Qed.

Lemma gain_step g o i t : (0 < f_samples (gm_fader g))%nat ->
  qabs (gain_at g o i (S t) - gain_at g o i t)
  <= qabs (entry (gm_next g) o i - entry (gm_prev g) o i) / nq (f_samples (gm_fader g)).
Proof.
  intros H. unfold gain_at.
  set (p := entry (gm_prev g) o i). set (n := entry (gm_next g) o i).
  replace (gm_counter g * f_block (gm_fader g) + S t + 1)%nat
    with (S (gm_counter g * f_block (gm_fader g) + t + 1)) by lia.
  set (k := (gm_counter g * f_block (gm_fader g) + t + 1)%nat).
  destruct (progress_step (f_samples (gm_fader g)) k H) as [A B].
  replace (between p n (progress (f_samples (gm_fader g)) (S k))
           - between p n (progress (f_samples (gm_fader g)) k))
    with ((progress (f_samples (gm_fader g)) (S k) - progress (f_samples (gm_fader g)) k) * (n - p))
    by (unfold between; ring).
  rewrite qabs_mult, (qabs_pos _ A).
  replace (qabs (n - p) / nq (f_samples (gm_fader g)))
    with (1 / nq (f_samples (gm_fader g)) * qabs (n - p))
    by (field; apply nq_neq_0; lia).
  apply Qcmult_le_compat_r; [exact B|apply qabs_nonneg].
Qed.

(** Without new gains the next block continues the transition. *)
Lemma gain_next_block g x g1 out o i t : gm_ok g ->
  length x = gm_inputs g -> Forall (fun l => length l = f_block (gm_fader g)) x ->
  gm_process g x = Ok (g1, out) ->
  gain_at g1 o i t = gain_at g o i (f_block (gm_fader g) + t).
Proof.
  intros Hok Hx Hxs E1.
  destruct (gm_process_ok g x Hok Hx Hxs)
    as (g' & o1 & E1' & Hok1 & Ep & En & Ef & Eo & Ei & Ec & _).
  assert (g' = g1) by congruence. subst g'.
  destruct Hok as ((Hb & Hp & _) & _ & _ & Hc).
  unfold gain_at. rewrite Ep, En, Ef, Ec. f_equal. rewrite Hp.
  rewrite <- Nat.add_assoc. rewrite progress_sat by exact Hb. f_equal. lia.
Qed.

(** Blocks after the last setting of the gains. *)
Lemma target_reached eps g m g1 xs g2 outs :
  gm_ok g -> gm_set eps g m = Ok g1 ->
  Forall (fun x => op_ok (gm_inputs g) (gm_outputs g) (f_block (gm_fader g)) (GProcess x)) xs ->
  gm_run eps g1 (map GProcess xs) = Ok (g2, outs) ->
  forall o i t, (o < gm_outputs g)%nat -> (i < gm_inputs g)%nat ->
  (f_samples (gm_fader g) <= length xs * f_block (gm_fader g) + t + 1)%nat ->
  gain_at g2 o i t = entry m o i.
Proof.
  intros Hok Es Hx Hr o i t Ho Hi Ht.
  assert (Hm : has_shape m (gm_outputs g) (gm_inputs g) = true).
  { unfold gm_set in Es. destruct (has_shape m (gm_outputs g) (gm_inputs g)); [reflexivity|discriminate]. }
  destruct (gm_set_ok eps g m Hok Hm) as (g' & Es' & Hok1 & En & Ec & Ef & Eo & Ei & _).
  assert (g' = g1) by congruence. subst g'. clear Es'.
  assert (G : forall t, gain_at g2 o i t = gain_at g1 o i (length xs * f_block (gm_fader g1) + t)).
  { rewrite <- Ei, <- Eo, <- Ef in Hx. clear - Hok1 Hx Hr. revert g1 outs Hok1 Hx Hr.
    induction xs as [|x xs IH]; intros g1 outs Hok1 Hx Hr t.
    - injection Hr as <- _. reflexivity.
    - apply Forall_cons_iff in Hx as [[Hx1 Hx2] Hx]. cbn [map gm_run] in Hr.
      destruct (gm_process_ok g1 x Hok1 Hx1 Hx2)
        as (g3 & o3 & E3 & Hok3 & _ & _ & Ef & Eo & Ei & _).
      rewrite E3 in Hr. cbn [bind] in Hr.
      destruct (gm_run eps g3 (map GProcess xs)) as [[g4 o4]| |] eqn:E4; cbn [bind] in Hr; try discriminate.
      injection Hr as <- _. rewrite <- Ei, <- Eo, <- Ef in Hx.
      rewrite (IH g3 o4 Hok3 Hx E4 t). rewrite (gain_next_block g1 x g3 o3) by assumption.
      rewrite Ef. f_equal. simpl length. lia. }
  rewrite G, Ef. unfold gain_at. rewrite Ec, Ef, progress_full, between_1, En by lia. reflexivity.
Qed.
