(** Properties C19 (gain matrix transitions), C49 (gain matrix with constant control
    input) and C51 (gain vector transitions). *)
From Verif Require Import Base Num Memory RampModel GainModel GainProofs GainControlProofs.
Local Open Scope Qc_scope.

(** C19: in every reachable state the output of a block is the mix of the inputs with
    the gains [gain_at]. *)
Theorem C19_output_is_mix_with_gains :
  forall eps inputs outputs block steps g x,
  gm_reachable eps inputs outputs block steps g ->
  op_ok inputs outputs block (GProcess x) ->
  exists g' out, gm_process g x = Ok (g', out)
    /\ gm_reachable eps inputs outputs block steps g'
    /\ block_matches outputs block out
         (fun o t => qsum (map (fun i => gain_at g o i t * entry x i t) (seq 0 inputs))).
Proof. exact reachable_output. Qed.
Print Assumptions C19_output_is_mix_with_gains.

(** C19 (partial: restricted to histories in which no gain is set while a crosspoint
    has moved by less than the threshold, which includes setting gains twice without
    processing in between; see the refutation below).  All outputs equal those of an
    ideal matrix whose gains move linearly from their momentary value to the new
    target within [steps] samples. *)
Theorem C19_follows_ideal_ramps_partial :
  forall inputs outputs block steps m eps g ops,
  gm_new_matrix inputs outputs block steps m = Ok g ->
  Forall (op_ok inputs outputs block) ops ->
  above_threshold eps inputs outputs block steps (ideal_new m) ops ->
  exists g' outs, gm_run eps g ops = Ok (g', outs)
    /\ Forall2 (block_matches outputs block) outs (ideal_run block steps (ideal_new m) ops).
Proof. exact gain_tracks_ideal. Qed.
Print Assumptions C19_follows_ideal_ramps_partial.

(** C19 (partial: gains set after at least one processed block).  The new transition
    starts at the gain of the last sample, or at most eps * steps / block away. *)
Theorem C19_transition_starts_at_last_gain_partial :
  forall eps inputs outputs block steps g x g1 out m g2 o i,
  0 <= eps -> gm_reachable eps inputs outputs block steps g ->
  op_ok inputs outputs block (GProcess x) ->
  gm_process g x = Ok (g1, out) -> gm_set eps g1 m = Ok g2 ->
  (o < outputs)%nat -> (i < inputs)%nat ->
  let last := gain_at g o i (block - 1) in
  let start := entry (gm_prev g2) o i in
  (start = last \/ (start = entry (gm_next g) o i
     /\ qabs (last - entry (gm_prev g) o i) < eps
     /\ qabs (start - last) * nq block <= eps * nq steps)).
Proof.
  intros eps inputs outputs block steps g x g1 out m g2 o i He R [Hx1 Hx2] E1 E2 Ho Hi.
  destruct (reachable_ok _ _ _ _ _ _ R) as (Hok & Ei & Eo & Eb & Es & _).
  pose proof (transition_start eps g x m g1 out g2 o i He Hok) as H.
  rewrite Ei, Eo, Eb, Es in H. exact (H Hx1 Hx2 E1 E2 Ho Hi).
Qed.
Print Assumptions C19_transition_starts_at_last_gain_partial.

(** C19: within a transition the gain changes by at most the slope per sample, also
    across block boundaries. *)
Theorem C19_slope_bounded :
  forall eps inputs outputs block steps g x g1 out o i t,
  gm_reachable eps inputs outputs block steps g -> (0 < steps)%nat ->
  op_ok inputs outputs block (GProcess x) -> gm_process g x = Ok (g1, out) ->
  let slope := qabs (entry (gm_next g) o i - entry (gm_prev g) o i) / nq steps in
  qabs (gain_at g o i (S t) - gain_at g o i t) <= slope
  /\ qabs (gain_at g1 o i 0 - gain_at g o i (block - 1)) <= slope.
Proof.
  intros eps inputs outputs block steps g x g1 out o i t R Hs [Hx1 Hx2] E.
  destruct (reachable_ok _ _ _ _ _ _ R) as (Hok & Ei & Eo & Eb & Es & Hb).
  cbn zeta. rewrite <- Es. rewrite <- Es in Hs. split; [apply gain_step; exact Hs|].
  rewrite (gain_next_block g x g1 out) by (first [assumption|congruence|rewrite Eb; assumption]).
  rewrite Eb, Nat.add_0_r. replace block with (S (block - 1)) at 1 by lia. apply gain_step. exact Hs.
Qed.
Print Assumptions C19_slope_bounded.

(** C19: [steps] samples after the last setting the gains equal the target. *)
Theorem C19_target_reached :
  forall eps inputs outputs block steps g m g1 xs g2 outs,
  gm_reachable eps inputs outputs block steps g -> gm_set eps g m = Ok g1 ->
  Forall (fun x => op_ok inputs outputs block (GProcess x)) xs ->
  gm_run eps g1 (map GProcess xs) = Ok (g2, outs) ->
  forall o i t, (o < outputs)%nat -> (i < inputs)%nat ->
  (steps <= length xs * block + t + 1)%nat -> gain_at g2 o i t = entry m o i.
Proof.
  intros eps inputs outputs block steps g m g1 xs g2 outs R E Hx Hr o i t Ho Hi Ht.
  destruct (reachable_ok _ _ _ _ _ _ R) as (Hok & Ei & Eo & Eb & Es & Hb).
  pose proof (target_reached eps g m g1 xs g2 outs Hok E) as H.
  rewrite Ei, Eo, Eb, Es in H. exact (H Hx Hr o i t Ho Hi Ht).
Qed.
Print Assumptions C19_target_reached.

Lemma two_outputs {A B} (d : A) (e : B) (r : res (A * list B)) :
  match r with Ok (_, [_; _]) => true | _ => false end = true ->
  r = Ok (fst (the (d, []) r), [nth 0 (snd (the (d, []) r)) e; nth 1 (snd (the (d, []) r)) e]).
Proof.
  destruct r as [[a [|x [|y [|z l]]]]| |]; intros E; try discriminate E. reflexivity.
Qed.

(** Gains set twice without processing a block in between: the gain jumps from 0 to
    the target (1) of the transition that never started. *)
Definition eps24 : Qc := 1 / zq (2 ^ 23).
Example gm_ex : gm := match gm_new 1 1 2 4 0 with Ok g => g | _ => MkGm 0 0 [] [] 0 (MkFader 0 0 0 []) end.
Definition ones : list (list Qc) := [[1; 1]].

Theorem C19_set_twice_jumps_refuted :
  exists m1 m2 x out1 out2 g',
    gm_run eps24 gm_ex [GProcess x; GSet m1; GSet m2; GProcess x] = Ok (g', [out1; out2])
    /\ x = [[1; 1]]
    (* gain 0 for both samples of the first block *)
    /\ map (map this) out1 = [[0; 0]]%Q
    (* the gain jumps to the previous target *)
    /\ map (map this) out2 = [[1; 1]]%Q.
Proof.
  set (r := gm_run eps24 gm_ex [GProcess ones; GSet [[1]]; GSet [[1]]; GProcess ones]).
  exists [[1]], [[1]], ones, (nth 0 (snd (the (gm_ex, []) r)) []), (nth 1 (snd (the (gm_ex, []) r)) []),
    (fst (the (gm_ex, []) r)).
  split; [|split; [reflexivity|split; vm_compute; reflexivity]].
  apply two_outputs. vm_compute. reflexivity.
Qed.
Print Assumptions C19_set_twice_jumps_refuted.

Example C19_example :
  match gm_run eps24 gm_ex [GSet [[1]]; GProcess ones; GSet [[0]]; GProcess ones; GProcess ones] with
  | Ok (_, outs) => map (map (map this)) outs
                    = [[[1 # 4; 1 # 2]]; [[3 # 8; 1 # 4]]; [[1 # 8; 0]]]%Q
  | _ => False
  end
  /\ gm_reachable eps24 1 1 2 4 gm_ex
  /\ above_threshold eps24 1 1 2 4 (ideal_new [[0]])
       [GSet [[1]]; GProcess ones; GSet [[0]]; GProcess ones; GProcess ones].
Proof.
  split; [vm_compute; reflexivity|]. split.
  - exists [[0]], gm_ex, [], []. split; [vm_compute; reflexivity|]. split; [constructor|reflexivity].
  - cbn [above_threshold]. split; [|split; [|exact I]].
    + intros o i Ho Hi. left. reflexivity.
    + intros o i Ho Hi. right. right.
      assert (o = 0%nat) by lia. assert (i = 0%nat) by lia. subst. vm_compute. discriminate.
Qed.

(** C49 (partial: the interpolation period is exceeded; reached exactly only after
    finitely many further blocks). *)
Theorem C49_constant_target_reached_eventually_partial :
  forall inputs outputs block steps m0 eps g m,
  0 < eps -> (0 < inputs)%nat -> (0 < outputs)%nat ->
  gm_new_matrix inputs outputs block steps m0 = Ok g ->
  has_shape m outputs inputs = true ->
  exists N, forall xs g' outs,
    Forall (fun x => op_ok inputs outputs block (GProcess x)) xs ->
    rcl_gm_run eps g (map (fun x => (m, x)) xs) = Ok (g', outs) ->
    forall n, (N <= n)%nat -> (n < length xs)%nat ->
      block_matches outputs block (nth n outs [])
        (fun o t => qsum (map (fun i => entry m o i * entry (nth n xs []) i t) (seq 0 inputs))).
Proof. exact creep_converges. Qed.
Print Assumptions C49_constant_target_reached_eventually_partial.

(** C49: exact output of every block while the control input is constant. *)
Theorem C49_exact_course :
  forall inputs outputs block steps m0 eps g m xs,
  0 < eps -> (0 < inputs)%nat -> (0 < outputs)%nat ->
  gm_new_matrix inputs outputs block steps m0 = Ok g ->
  has_shape m outputs inputs = true ->
  Forall (fun x => op_ok inputs outputs block (GProcess x)) xs ->
  exists g' outs, rcl_gm_run eps g (map (fun x => (m, x)) xs) = Ok (g', outs)
    /\ length outs = length xs
    /\ forall n, (n < length xs)%nat ->
         block_matches outputs block (nth n outs [])
                       (creeping_output eps block steps m0 m n (nth n xs [])).
Proof. exact creep_from_new. Qed.
Print Assumptions C49_exact_course.

(** C49: the remaining distance to the target decreases geometrically ... *)
Theorem C49_distance_geometric :
  forall eps block steps d n,
  (forall k, (k < n)%nat ->
     eps <= qabs (d * (1 - progress steps block) ^ k * progress steps block)) ->
  error_after eps (progress steps block) n d = d * (1 - progress steps block) ^ n.
Proof. intros eps block steps d n. apply error_geometric. Qed.
Print Assumptions C49_distance_geometric.

(** ... and transitions of at most one block are exact from the second block on. *)
Theorem C49_short_transitions_exact :
  forall eps block steps d n, (steps <= block)%nat ->
  error_after eps (progress steps block) (S n) d = 0.
Proof.
  intros eps block steps d n H. rewrite progress_full by exact H. apply error_single_block.
Qed.
Print Assumptions C49_short_transitions_exact.

(** C49 is false: the interpolation period is 2 blocks (4 samples), but the target 1
    is not reached at the end of the 2nd block, nor of the 10th. *)
Theorem C49_refuted :
  exists g' outs, rcl_gm_run eps24 gm_ex (repeat ([[1]], ones) 10) = Ok (g', outs)
    /\ f_samples (gm_fader gm_ex) = 4%nat
    /\ this (entry (nth 1 outs []) 0 1) = (3 # 4)%Q
    /\ this (entry (nth 9 outs []) 0 1) = (1023 # 1024)%Q.
Proof.
  set (r := rcl_gm_run eps24 gm_ex (repeat ([[1]], ones) 10)).
  exists (fst (the (gm_ex, []) r)), (snd (the (gm_ex, []) r)).
  split; [rewrite <- surjective_pairing; apply the_ok; vm_compute; reflexivity|].
  repeat split; vm_compute; reflexivity.
Qed.
Print Assumptions C49_refuted.

Example C49_example :
  match rcl_gm_run eps24 gm_ex (repeat ([[1]], ones) 4) with
  | Ok (_, outs) => map (fun o => this (entry o 0 1)) outs = [1 # 2; 3 # 4; 7 # 8; 15 # 16]%Q
  | _ => False
  end
  /\ gm_new_matrix 1 1 2 4 [[0]] = Ok gm_ex /\ has_shape [[1]] 1 1 = true.
Proof. split; [vm_compute; reflexivity|]. split; vm_compute; reflexivity. Qed.

(** C51: gain vector; in every reachable state a block is scaled with the gains
    [vgain_at], *)
Theorem C51_output_is_scaled_input :
  forall block steps gains v0 ops v outs x,
  gv_new block steps gains = Ok v0 ->
  Forall (gv_op_ok (length gains) block) ops -> gv_run v0 ops = Ok (v, outs) ->
  gv_op_ok (length gains) block (VProcess x) ->
  exists v' out, gv_process v x = Ok (v', out)
    /\ block_matches (length gains) block out (fun c t => vgain_at v c t * entry x c t).
Proof.
  intros block steps gains v0 ops v outs x E Hops Hr [Hx1 Hx2].
  destruct (gv_new_ok _ _ _ _ E) as (R & Ec & En & _ & Eb & Es & _).
  destruct (gv_run_ok ops v0 R) as (v1 & o1 & E1 & R1 & F1 & F2).
  { rewrite Ec, Eb. exact Hops. }
  assert (v1 = v) by congruence. subst v1.
  destruct (gv_process_ok v x R1) as (v' & out & E' & _ & _ & _ & _ & _ & M).
  { rewrite F2, Ec. exact Hx1. } { rewrite F1, Eb. exact Hx2. }
  exists v', out. split; [exact E'|]. rewrite Hx1, F1, Eb in M. exact M.
Qed.
Print Assumptions C51_output_is_scaled_input.

(** C51: [steps] samples after the last setting the gains equal the target, *)
Theorem C51_target_reached :
  forall block steps gains v0 ops v outs new xs v2 outs2,
  gv_new block steps gains = Ok v0 ->
  Forall (gv_op_ok (length gains) block) ops -> gv_run v0 ops = Ok (v, outs) ->
  length new = length gains ->
  Forall (fun x => gv_op_ok (length gains) block (VProcess x)) xs ->
  gv_run v (VSet new :: map VProcess xs) = Ok (v2, outs2) ->
  forall c t, (steps <= length xs * block + t + 1)%nat -> vgain_at v2 c t = nth c new 0.
Proof.
  intros block steps gains v0 ops v outs new xs v2 outs2 E Hops Hr Hn Hx Hr2 c t Ht.
  destruct (gv_new_ok _ _ _ _ E) as (R & Ec & En & _ & Eb & Es & _).
  destruct (gv_run_ok ops v0 R) as (v1 & o1 & E1 & R1 & F1 & F2).
  { rewrite Ec, Eb. exact Hops. }
  assert (v1 = v) by congruence. subst v1.
  pose proof (vtarget_reached v new xs v2 outs2 R1) as H.
  rewrite F2, F1, Ec, Eb, Es in H. exact (H Hn Hx Hr2 c t Ht).
Qed.
Print Assumptions C51_target_reached.

(** C51 (partial: only if the previous transition is complete).  A new transition
    starts at the gain of the last sample. *)
Theorem C51_transition_starts_at_last_gain_partial :
  forall block steps gains v0 ops v outs x v1 out new v2 c,
  gv_new block steps gains = Ok v0 ->
  Forall (gv_op_ok (length gains) block) ops -> gv_run v0 ops = Ok (v, outs) ->
  gv_op_ok (length gains) block (VProcess x) ->
  gv_process v x = Ok (v1, out) -> gv_set v1 new = Ok v2 ->
  (steps <= (gv_counter v + 1) * block)%nat ->
  forall t, vgain_at v2 c t
    = between (vgain_at v c (block - 1)) (nth c new 0) (progress steps (t + 1)).
Proof.
  intros block steps gains v0 ops v outs x v1 out new v2 c E Hops Hr [Hx1 Hx2] Ep Es2 Hd t.
  destruct (gv_new_ok _ _ _ _ E) as (R & Ec & En & _ & Eb & Es & Hb).
  destruct (gv_run_ok ops v0 R) as (v3 & o1 & E1 & R1 & F1 & F2).
  { rewrite Ec, Eb. exact Hops. }
  assert (v3 = v) by congruence. subst v3.
  destruct (gv_process_ok v x R1) as (v' & out' & E' & R2 & _ & En' & Ef' & _ & _).
  { rewrite F2, Ec. exact Hx1. } { rewrite F1, Eb. exact Hx2. }
  assert (v' = v1) by congruence. subst v'.
  rewrite (vset_start v1 new v2 c t R2 Es2), En', Ef', F1, Es. f_equal.
  unfold vgain_at. rewrite F1, Es, Eb. rewrite progress_full, between_1 by nia. reflexivity.
Qed.
Print Assumptions C51_transition_starts_at_last_gain_partial.

Definition gv_ex : gvec := match gv_new 2 4 [0] with Ok v => v | _ => MkGvec [] [] 0 (MkFader 0 0 0 []) end.

(** C51 is false for gains set during a running transition: the gain 1/2 reached at
    the end of the first block is followed by 3/4, one half jump plus a step back
    from the target 1. *)
Theorem C51_running_transition_jumps_refuted :
  exists v' out1 out2,
    gv_run gv_ex [VSet [1]; VProcess ones; VSet [0]; VProcess ones] = Ok (v', [out1; out2])
    /\ map (map this) out1 = [[1 # 4; 1 # 2]]%Q
    /\ map (map this) out2 = [[3 # 4; 1 # 2]]%Q.
Proof.
  set (r := gv_run gv_ex [VSet [1]; VProcess ones; VSet [0]; VProcess ones]).
  exists (fst (the (gv_ex, []) r)), (nth 0 (snd (the (gv_ex, []) r)) []), (nth 1 (snd (the (gv_ex, []) r)) []).
  split; [|split; vm_compute; reflexivity].
  apply two_outputs. vm_compute. reflexivity.
Qed.
Print Assumptions C51_running_transition_jumps_refuted.

Example C51_example :
  gv_new 2 4 [0] = Ok gv_ex
  /\ match gv_run gv_ex [VSet [1]; VProcess ones; VProcess ones; VSet [0]; VProcess ones] with
     | Ok (_, outs) => map (map (map this)) outs
         = [[[1 # 4; 1 # 2]]; [[3 # 4; 1]]; [[3 # 4; 1 # 2]]]%Q
     | _ => False
     end.
Proof. split; vm_compute; reflexivity. Qed.
