(** Gain matrix with constant control input, and gain vector. *)
From Coq Require Import QArith.Qcabs.
From Verif Require Import Base Num Memory RampModel RampProofs GainModel GainProofs.
Local Open Scope Qc_scope.

(** Distance to the target at the start of the next block, if the control input is
    set again after one block. [r] is the fraction of the transition done in a block. *)
Definition next_error (eps r d : Qc) : Qc :=
  if qle eps (qabs (d * r)) then d * (1 - r) else 0.

Fixpoint error_after (eps r : Qc) (n : nat) (d : Qc) : Qc :=
  match n with O => d | S n' => next_error eps r (error_after eps r n' d) end.

(** Output of the [n]-th block if all gains start at [m0] and the target is [m]. *)
Definition creeping_output (eps : Qc) (block steps : nat) (m0 m : matrix) (n : nat)
           (x : list (list Qc)) (o t : nat) : Qc :=
  qsum (map (fun i => (entry m o i - (1 - progress steps (t + 1))
                         * error_after eps (progress steps block) n (entry m o i - entry m0 o i))
                      * entry x i t) (seq 0 (length x))).

Lemma error_after_shift eps r n d :
  error_after eps r n (next_error eps r d) = error_after eps r (S n) d.
Proof. induction n as [|n IH]; [reflexivity|]. cbn [error_after] in *. rewrite IH. reflexivity. Qed.

(** States before the control input is set: the current transition started at
    distance [d], or the object is fresh. *)
Definition creeping (m : matrix) (g : gm) (d : nat -> nat -> Qc) : Prop :=
  gm_ok g /\ gm_next g = m
  /\ gm_counter g = Nat.min 1 (f_periods (gm_fader g))
  /\ forall o i, (o < gm_outputs g)%nat -> (i < gm_inputs g)%nat ->
       entry m o i - entry (gm_prev g) o i = d o i.

Lemma creep_process m g x : gm_ok g -> gm_next g = m -> gm_counter g = 0%nat ->
  op_ok (gm_inputs g) (gm_outputs g) (f_block (gm_fader g)) (GProcess x) ->
  exists g' out, gm_process g x = Ok (g', out)
   /\ creeping m g' (fun o i => entry m o i - entry (gm_prev g) o i)
   /\ gm_inputs g' = gm_inputs g /\ gm_outputs g' = gm_outputs g /\ gm_fader g' = gm_fader g
   /\ block_matches (gm_outputs g) (f_block (gm_fader g)) out
       (fun o t => qsum (map (fun i => (entry m o i - (1 - progress (f_samples (gm_fader g)) (t + 1))
                         * (entry m o i - entry (gm_prev g) o i)) * entry x i t)
                             (seq 0 (length x)))).
Proof.
  intros Hok En Ec [Hx1 Hx2].
  destruct (gm_process_ok g x Hok Hx1 Hx2)
    as (g' & out & E & Hok' & Ep & En' & Ef & Eo & Ei & Ec' & Lo & Ho).
  exists g', out. split; [exact E|]. split.
  { split; [exact Hok'|]. split; [congruence|]. rewrite Ec', Ef, Ec, Ep. split; [reflexivity|]. auto. }
  do 3 (split; [assumption|]).
  split; [exact Lo|]. split; [intros o H; apply Ho; exact H|].
  intros o t H1 H2. destruct (Ho o H1) as [_ V]. rewrite V by exact H2. rewrite Hx1.
  f_equal. apply map_ext. intros i. f_equal. unfold gain_at. rewrite Ec, En. simpl. unfold between.
  ring.
Qed.

Lemma creep_set eps m g d : creeping m g d -> has_shape m (gm_outputs g) (gm_inputs g) = true ->
  exists g', gm_set eps g m = Ok g' /\ gm_ok g' /\ gm_next g' = m /\ gm_counter g' = 0%nat
    /\ gm_inputs g' = gm_inputs g /\ gm_outputs g' = gm_outputs g /\ gm_fader g' = gm_fader g
    /\ forall o i, (o < gm_outputs g)%nat -> (i < gm_inputs g)%nat ->
       entry m o i - entry (gm_prev g') o i
       = next_error eps (progress (f_samples (gm_fader g)) (f_block (gm_fader g))) (d o i).
Proof.
  intros (Hok & En & Ec & Hd) Hm.
  destruct (gm_set_ok eps g m Hok Hm) as (g' & E & Hok' & En' & Ec' & Ef & Eo & Ei & V).
  exists g'. do 7 (split; [assumption|]).
  intros o i Ho Hi. rewrite V by assumption. rewrite <- (Hd o i Ho Hi).
  set (p := entry (gm_prev g) o i). rewrite En.
  assert (Er : reached g o i
     = between p (entry m o i) (progress (f_samples (gm_fader g)) (f_block (gm_fader g)))).
  { unfold reached. rewrite En, Ec. fold p. f_equal. destruct Hok as ((Hb & Hp & _) & _).
    rewrite Hp. pose proof (progress_sat (f_block (gm_fader g)) (f_samples (gm_fader g)) 1 0 Hb) as S0.
    cbn zeta in S0. rewrite !Nat.add_0_r in S0. rewrite S0, Nat.mul_1_l. reflexivity. }
  rewrite Er. unfold next_error.
  set (r := progress _ _). set (t := entry m o i).
  replace (between p t r - p) with ((t - p) * r) by (unfold between; ring).
  destruct (qle _ _); unfold between; ring.
Qed.

Lemma rcl_process_set eps g m x g1 : (0 < gm_inputs g)%nat -> (0 < gm_outputs g)%nat ->
  gm_set eps g m = Ok g1 -> rcl_gm_process eps g m x = gm_process g1 x.
Proof.
  intros H1 H2 E. unfold rcl_gm_process. rewrite E. cbn [bind].
  rewrite (proj2 (Nat.eqb_neq _ _)) by lia. rewrite (proj2 (Nat.eqb_neq _ _)) by lia. reflexivity.
Qed.

Definition matches_all (eps : Qc) (outputs block steps : nat) (m : matrix)
  (d : nat -> nat -> Qc) (n0 : nat) (xs outs : list (list (list Qc))) : Prop :=
  length outs = length xs /\
  forall n, (n < length xs)%nat ->
    block_matches outputs block (nth n outs [])
      (fun o t => qsum (map (fun i => (entry m o i - (1 - progress steps (t + 1))
                         * error_after eps (progress steps block) (n0 + n) (d o i))
                      * entry (nth n xs []) i t) (seq 0 (length (nth n xs []))))).

Lemma block_matches_ext outputs block out f1 f2 :
  (forall o t, (o < outputs)%nat -> (t < block)%nat -> f1 o t = f2 o t) ->
  block_matches outputs block out f1 -> block_matches outputs block out f2.
Proof.
  intros H (A & B & C). split; [exact A|]. split; [exact B|].
  intros o t Ho Ht. rewrite C by assumption. apply H; assumption.
Qed.

Lemma creep_run eps m xs : forall g d, creeping m g d ->
  (0 < gm_inputs g)%nat -> (0 < gm_outputs g)%nat ->
  has_shape m (gm_outputs g) (gm_inputs g) = true ->
  Forall (fun x => op_ok (gm_inputs g) (gm_outputs g) (f_block (gm_fader g)) (GProcess x)) xs ->
  exists g' outs, rcl_gm_run eps g (map (fun x => (m, x)) xs) = Ok (g', outs)
    /\ matches_all eps (gm_outputs g) (f_block (gm_fader g)) (f_samples (gm_fader g)) m d 1 xs outs.
Proof.
  induction xs as [|x xs IH]; intros g d C Hi Ho Hm Hx.
  - exists g, []. split; [reflexivity|]. split; [reflexivity|]. intros n Hn. simpl in Hn. lia.
  - apply Forall_cons_iff in Hx as [Hx1 Hx].
    destruct (creep_set eps m g d C Hm) as (g1 & E1 & Hok1 & En1 & Ec1 & Ei1 & Eo1 & Ef1 & D1).
    destruct (creep_process m g1 x Hok1 En1 Ec1) as (g2 & out & E2 & C2 & Ei2 & Eo2 & Ef2 & M).
    { rewrite Ei1, Eo1, Ef1. exact Hx1. }
    destruct (IH g2 _ C2) as (g3 & outs & E3 & L3 & M3).
    { congruence || lia. } { lia. } { rewrite Eo2, Ei2, Eo1, Ei1. exact Hm. }
    { rewrite Ei2, Eo2, Ef2, Ei1, Eo1, Ef1. exact Hx. }
    exists g3, (out :: outs). cbn [map rcl_gm_run]. rewrite (rcl_process_set eps g m x g1 Hi Ho E1), E2.
    cbn [bind]. rewrite E3. cbn [bind]. split; [reflexivity|].
    split; [simpl; lia|]. rewrite Ef2, Eo2, Ef1, Eo1 in M3. rewrite Eo1, Ef1 in M.
    destruct Hx1 as [Lx _].
    intros [|n] Hn; cbn [nth].
    + eapply block_matches_ext; [|exact M]. intros o t Hoo Ht. cbn beta. f_equal.
      apply map_ext_in. intros i Hii. apply in_seq in Hii. cbn [Nat.add error_after].
      rewrite D1 by lia. reflexivity.
    + simpl in Hn. eapply block_matches_ext; [|exact (M3 n ltac:(lia))].
      intros o t Hoo Ht. cbn beta. f_equal.
      apply map_ext_in. intros i Hii. apply in_seq in Hii.
      assert (Ln : length (nth n xs []) = gm_inputs g).
      { rewrite Forall_forall in Hx. apply (Hx (nth n xs [])). apply nth_In. lia. }
      rewrite D1 by lia. rewrite error_after_shift. reflexivity.
Qed.

Lemma creep_from_new inputs outputs block steps m0 eps g m xs :
  0 < eps -> (0 < inputs)%nat -> (0 < outputs)%nat ->
  gm_new_matrix inputs outputs block steps m0 = Ok g ->
  has_shape m outputs inputs = true ->
  Forall (fun x => op_ok inputs outputs block (GProcess x)) xs ->
  exists g' outs, rcl_gm_run eps g (map (fun x => (m, x)) xs) = Ok (g', outs)
    /\ length outs = length xs
    /\ forall n, (n < length xs)%nat ->
         block_matches outputs block (nth n outs [])
                       (creeping_output eps block steps m0 m n (nth n xs [])).
Proof.
  intros He Hi Ho E Hm Hx.
  destruct (new_refines _ _ _ _ _ _ E) as (R & Ei & Eo & Eb & Es & Hb & Ep & En & Ec).
  destruct xs as [|x xs].
  { exists g, []. split; [reflexivity|]. split; [reflexivity|]. intros n Hn. simpl in Hn. lia. }
  apply Forall_cons_iff in Hx as [Hx1 Hx].
  rewrite <- Ei in Hm, Hi. rewrite <- Eo in Hm, Ho.
  destruct (gm_set_ok eps g m (proj1 R) Hm) as (g1 & E1 & Hok1 & En1 & Ec1 & Ef1 & Eo1 & Ei1 & V).
  assert (D1 : forall o i, (o < gm_outputs g)%nat -> (i < gm_inputs g)%nat ->
     entry (gm_prev g1) o i = entry m0 o i).
  { intros o i Hoo Hii. rewrite V by assumption. unfold reached. rewrite Ep, En, between_same.
    destruct (qle _ _); reflexivity. }
  destruct (creep_process m g1 x Hok1 En1 Ec1) as (g2 & out & E2 & C2 & Ei2 & Eo2 & Ef2 & M).
  { rewrite Ei1, Eo1, Ef1, Ei, Eo, Eb. exact Hx1. }
  destruct (creep_run eps m xs g2 _ C2) as (g3 & outs & E3 & L3 & M3).
  { lia. } { lia. } { rewrite Eo2, Ei2, Eo1, Ei1. exact Hm. }
  { rewrite Ei2, Eo2, Ef2, Ei1, Eo1, Ef1, Ei, Eo, Eb. exact Hx. }
  exists g3, (out :: outs). cbn [map rcl_gm_run]. rewrite (rcl_process_set eps g m x g1 Hi Ho E1), E2.
  cbn [bind]. rewrite E3. cbn [bind]. split; [reflexivity|].
  split; [simpl; lia|]. rewrite Ef2, Eo2, Ef1, Eo1, Eo, Eb, Es in M3.
  rewrite Eo1, Ef1, Eo, Eb, Es in M. destruct Hx1 as [Lx _].
  intros [|n] Hn; cbn [nth].
  - eapply block_matches_ext; [|exact M]. intros o t Hoo Ht. unfold creeping_output. f_equal.
    apply map_ext_in. intros i Hii. apply in_seq in Hii. cbn [error_after].
    rewrite D1 by lia. reflexivity.
  - simpl in Hn. eapply block_matches_ext; [|exact (M3 n ltac:(lia))].
    intros o t Hoo Ht. unfold creeping_output. f_equal.
    apply map_ext_in. intros i Hii. apply in_seq in Hii.
    assert (Ln : length (nth n xs []) = inputs).
    { rewrite Forall_forall in Hx. apply (Hx (nth n xs [])). apply nth_In. lia. }
    rewrite D1 by lia. reflexivity.
Qed.

(** The distance vanishes after finitely many blocks. *)
Lemma next_error_zero eps r : 0 < eps -> next_error eps r 0 = 0.
Proof. intros H. unfold next_error. destruct (qle _ _); ring. Qed.

Lemma next_error_decrease eps r d : 0 < eps -> 0 <= r -> r <= 1 ->
  next_error eps r d = 0 \/ qabs (next_error eps r d) <= qabs d - eps.
Proof.
  intros He H0 H1. unfold next_error. destruct (qle_spec eps (qabs (d * r))) as [Q|Q]; [right|auto].
  rewrite qabs_mult, (qabs_pos r H0) in Q. rewrite qabs_mult, (qabs_pos (1 - r)) by (clear - H1; qclra).
  replace (qabs d * (1 - r)) with (qabs d - qabs d * r) by ring. clear - Q.
  set (a := qabs d * r) in *. set (b := qabs d) in *. qclra.
Qed.

Lemma error_vanishes eps r d : 0 < eps -> 0 <= r -> r <= 1 ->
  forall n N, (N <= n)%nat -> qabs d < nq N * eps -> error_after eps r n d = 0.
Proof.
  intros He H0 H1 n N Hn HN.
  assert (Inv : forall k, error_after eps r k d = 0 \/ qabs (error_after eps r k d) <= qabs d - nq k * eps).
  { induction k as [|k IH]; [right; cbn [error_after]; rewrite nq_0; set (a := qabs d); qclra|].
    cbn [error_after]. destruct IH as [IH|IH].
    - left. rewrite IH. now apply next_error_zero.
    - destruct (next_error_decrease eps r (error_after eps r k d) He H0 H1) as [Z0|D]; [left; exact Z0|right].
      rewrite nq_S. set (a := qabs (next_error _ _ _)) in *. set (b := qabs (error_after _ _ _ _)) in *.
      set (c := qabs d) in *. replace ((nq k + 1) * eps) with (nq k * eps + eps) by ring.
      set (e := nq k * eps) in *. clear - IH D. qclra. }
  destruct (Inv n) as [Z0|D]; [exact Z0|exfalso].
  pose proof (qabs_nonneg (error_after eps r n d)) as P.
  assert (nq N * eps <= nq n * eps).
  { apply Qcmult_le_compat_r; [apply nq_le; exact Hn|now apply Qclt_le_weak]. }
  set (a := qabs (error_after _ _ _ _)) in *. set (c := qabs d) in *.
  set (e1 := nq N * eps) in *. set (e2 := nq n * eps) in *. clear - P D H HN. qclra.
Qed.

Lemma archimedes eps d : 0 < eps -> exists N, d < nq N * eps.
Proof.
  intros He. exists (Z.to_nat (qfloor (d / eps) + 1)).
  destruct (qfloor_spec (d / eps)) as [_ H].
  apply (proj2 (qdiv_lt d _ eps He)).
  eapply Qclt_le_trans; [exact H|]. unfold nq. rewrite <- zq_1, <- zq_plus. apply zq_le. lia.
Qed.

Lemma common_bound (P : nat -> nat -> Prop) n :
  (forall k, (k < n)%nat -> exists N, forall M, (N <= M)%nat -> P k M) ->
  exists N, forall M, (N <= M)%nat -> forall k, (k < n)%nat -> P k M.
Proof.
  induction n as [|n IH]; intros H.
  - exists 0%nat. intros. lia.
  - destruct IH as (N1 & H1); [intros k Hk; apply H; lia|].
    destruct (H n ltac:(lia)) as (N2 & H2). exists (Nat.max N1 N2).
    intros M HM k Hk. destruct (Nat.eq_dec k n) as [->|]; [apply H2; lia|apply H1; lia].
Qed.

Lemma creep_converges inputs outputs block steps m0 eps g m :
  0 < eps -> (0 < inputs)%nat -> (0 < outputs)%nat ->
  gm_new_matrix inputs outputs block steps m0 = Ok g ->
  has_shape m outputs inputs = true ->
  exists N, forall xs g' outs,
    Forall (fun x => op_ok inputs outputs block (GProcess x)) xs ->
    rcl_gm_run eps g (map (fun x => (m, x)) xs) = Ok (g', outs) ->
    forall n, (N <= n)%nat -> (n < length xs)%nat ->
      block_matches outputs block (nth n outs [])
        (fun o t => qsum (map (fun i => entry m o i * entry (nth n xs []) i t) (seq 0 inputs))).
Proof.
  intros He Hi Ho E Hm.
  set (r := progress steps block).
  destruct (progress_range steps block) as [R0 R1]. fold r in R0, R1.
  destruct (common_bound (fun o N => forall i, (i < inputs)%nat ->
     error_after eps r N (entry m o i - entry m0 o i) = 0) outputs) as (N & HN).
  { intros o Hoo. apply (common_bound (fun i N => error_after eps r N (entry m o i - entry m0 o i) = 0)).
    intros i Hii. destruct (archimedes eps (qabs (entry m o i - entry m0 o i)) He) as (N & HN).
    exists N. intros M HM. exact (error_vanishes eps r _ He R0 R1 M N HM HN). }
  exists N. intros xs g' outs Hx Hr n H1 H2.
  destruct (creep_from_new inputs outputs block steps m0 eps g m xs He Hi Ho E Hm Hx)
    as (g2 & outs2 & E2 & L2 & M2).
  assert (outs2 = outs) by congruence. subst outs2.
  eapply block_matches_ext; [|exact (M2 n H2)]. intros o t Hoo Ht. unfold creeping_output.
  assert (Ln : length (nth n xs []) = inputs).
  { rewrite Forall_forall in Hx. apply (Hx (nth n xs [])). apply nth_In. lia. }
  rewrite Ln. f_equal. apply map_ext_in. intros i Hii. apply in_seq in Hii.
  fold r. rewrite HN by (first [exact H1|lia]). ring.
Qed.

(** Transitions within one block are exact from the second block on. *)
Lemma error_single_block eps d n : error_after eps 1 (S n) d = 0.
Proof. cbn [error_after]. unfold next_error. destruct (qle _ _); ring. Qed.

(** Closed form as long as the threshold is not reached. *)
Lemma error_geometric eps r d n :
  (forall k, (k < n)%nat -> eps <= qabs (d * (1 - r) ^ k * r)) ->
  error_after eps r n d = d * (1 - r) ^ n.
Proof.
  induction n as [|n IH]; intros H; [simpl; ring|].
  cbn [error_after]. rewrite IH by (intros k Hk; apply H; lia).
  unfold next_error. destruct (qle_spec eps (qabs (d * (1 - r) ^ n * r))) as [Q|Q].
  - cbn [Qcpower]. ring.
  - exfalso. apply Q. apply H. lia.
Qed.

(** ** Gain vector *)

Definition gv_ok (v : gvec) : Prop :=
  fader_ok (gv_fader v) /\ length (gv_next v) = length (gv_cur v)
  /\ (gv_counter v <= f_periods (gv_fader v))%nat.

(** Gain applied to channel [c] at sample [t] of the next block *)
Definition vgain_at (v : gvec) (c t : nat) : Qc :=
  between (nth c (gv_cur v) 0) (nth c (gv_next v) 0)
          (progress (f_samples (gv_fader v)) (gv_counter v * f_block (gv_fader v) + t + 1)).

Lemma gv_new_ok block steps gains v : gv_new block steps gains = Ok v ->
  gv_ok v /\ gv_cur v = gains /\ gv_next v = gains /\ gv_counter v = 0%nat
  /\ f_block (gv_fader v) = block /\ f_samples (gv_fader v) = steps /\ (0 < block)%nat.
Proof.
  unfold gv_new. destruct (Nat.eq_dec block 0) as [->|Hb]; [discriminate|].
  destruct (fader_new_ok block steps ltac:(lia)) as (f & -> & Hf & Eb & Es). cbn [bind].
  intros E. injection E as <-. cbn [gv_cur gv_next gv_counter gv_fader].
  split; [split; [exact Hf|split; [reflexivity|cbn; lia]]|]. repeat (split; [first [reflexivity|assumption]|]). lia.
Qed.

Lemma gv_process_ok v x : gv_ok v -> length x = length (gv_cur v) ->
  Forall (fun l => length l = f_block (gv_fader v)) x ->
  exists v' out, gv_process v x = Ok (v', out) /\ gv_ok v'
    /\ gv_cur v' = gv_cur v /\ gv_next v' = gv_next v /\ gv_fader v' = gv_fader v
    /\ gv_counter v' = Nat.min (gv_counter v + 1) (f_periods (gv_fader v))
    /\ block_matches (length x) (f_block (gv_fader v)) out (fun c t => vgain_at v c t * entry x c t).
Proof.
  intros (Hf & Hn & Hc) Hx Hxs. unfold gv_process.
  rewrite (proj2 (Nat.ltb_ge _ _)) by lia.
  destruct (map_res_nth' (fun p => fader_scale (gv_fader v) (snd p) None (fst (fst p)) (snd (fst p))
                                         (gv_counter v))
              (combine (combine (gv_cur v) (gv_next v)) x) (0, 0, []) []
              (fun c l => length l = f_block (gv_fader v) /\ forall t, (t < f_block (gv_fader v))%nat ->
                 nth t l 0 = vgain_at v c t * entry x c t)) as (out & E & L & N).
  { intros c Hcc. rewrite !combine_length in Hcc.
    rewrite combine_nth by (rewrite combine_length; lia). rewrite combine_nth by lia. cbn [fst snd].
    destruct (fader_scale_ok (gv_fader v) (gv_counter v) (nth c (gv_cur v) 0) (nth c (gv_next v) 0)
                (nth c x []) None Hf) as (o & Eo & Lo & Vo).
    { rewrite Forall_forall in Hxs. apply Hxs. apply nth_In. lia. } { discriminate. }
    exists o. split; [exact Eo|]. split; [exact Lo|]. intros t Ht. rewrite Vo by exact Ht.
    rewrite Qcplus_0_l. reflexivity. }
  rewrite E. cbn [bind]. eexists _, out. split; [reflexivity|].
  rewrite !combine_length in L, N. unfold gv_ok. cbn [gv_cur gv_next gv_fader gv_counter].
  split; [split; [exact Hf|split; [exact Hn|lia]]|]. do 4 (split; [reflexivity|]).
  split; [lia|]. split; [intros c H; apply N; lia|]. intros c t H1 H2. apply N; [lia|exact H2].
Qed.

Lemma gv_set_ok v gains : gv_ok v -> length gains = length (gv_cur v) ->
  gv_set v gains = Ok (MkGvec (gv_next v) gains 0 (gv_fader v)).
Proof. intros _ H. unfold gv_set. rewrite H, Nat.eqb_refl. reflexivity. Qed.

Definition gv_op_ok (channels block : nat) (op : gv_op) : Prop :=
  match op with
  | VSet g => length g = channels
  | VProcess x => length x = channels /\ Forall (fun l => length l = block) x
  end.

Lemma gv_run_ok ops : forall v, gv_ok v ->
  Forall (gv_op_ok (length (gv_cur v)) (f_block (gv_fader v))) ops ->
  exists v' outs, gv_run v ops = Ok (v', outs) /\ gv_ok v'
    /\ gv_fader v' = gv_fader v /\ length (gv_cur v') = length (gv_cur v).
Proof.
  induction ops as [|[m|x] ops IH]; intros v R Hops.
  - exists v, []. auto.
  - apply Forall_cons_iff in Hops as [Hm Hops]. cbn in Hm.
    pose proof (gv_set_ok v m R Hm) as E1. pose proof R as (Rf & Rn & Rc).
    destruct (IH (MkGvec (gv_next v) m 0 (gv_fader v))) as (v2 & outs & E2 & R2 & F1 & F2).
    + split; [exact Rf|]. split; [cbn; lia|cbn; lia].
    + cbn [gv_cur gv_fader]. rewrite Rn. exact Hops.
    + exists v2, outs. cbn [gv_run]. rewrite E1. cbn [bind]. cbn [gv_cur gv_fader] in *.
      split; [exact E2|]. split; [exact R2|]. split; congruence.
  - apply Forall_cons_iff in Hops as [[Hx1 Hx2] Hops].
    destruct (gv_process_ok v x R Hx1 Hx2) as (v1 & o1 & E1 & R1 & Ec & En & Ef & _ & _).
    destruct (IH v1 R1) as (v2 & outs & E2 & R2 & F1 & F2).
    + rewrite Ec, Ef. exact Hops.
    + exists v2, (o1 :: outs). cbn [gv_run]. rewrite E1. cbn [bind]. rewrite E2. cbn [bind].
      split; [reflexivity|]. split; [exact R2|]. split; congruence.
Qed.

Lemma vgain_next_block v x v1 out c t : gv_ok v -> length x = length (gv_cur v) ->
  Forall (fun l => length l = f_block (gv_fader v)) x ->
  gv_process v x = Ok (v1, out) ->
  vgain_at v1 c t = vgain_at v c (f_block (gv_fader v) + t).
Proof.
  intros Hok Hx Hxs E1.
  destruct (gv_process_ok v x Hok Hx Hxs) as (v' & o' & E' & _ & Ec & En & Ef & Ecc & _).
  assert (v' = v1) by congruence. subst v'. destruct Hok as ((Hb & Hp & _) & _).
  unfold vgain_at. rewrite Ec, En, Ef, Ecc, Hp. f_equal.
  rewrite <- Nat.add_assoc. rewrite progress_sat by exact Hb. f_equal. lia.
Qed.

(** Blocks after the last setting of the gains. *)
Lemma vtarget_reached v gains xs v2 outs :
  gv_ok v -> length gains = length (gv_cur v) ->
  Forall (fun x => gv_op_ok (length (gv_cur v)) (f_block (gv_fader v)) (VProcess x)) xs ->
  gv_run v (VSet gains :: map VProcess xs) = Ok (v2, outs) ->
  forall c t, (f_samples (gv_fader v) <= length xs * f_block (gv_fader v) + t + 1)%nat ->
  vgain_at v2 c t = nth c gains 0.
Proof.
  intros Hok Hg Hx Hr c t Ht. cbn [gv_run] in Hr. rewrite (gv_set_ok v gains Hok Hg) in Hr.
  cbn [bind] in Hr. pose proof Hok as (Hf & Hn & _).
  set (v1 := MkGvec (gv_next v) gains 0 (gv_fader v)) in *.
  assert (Hok1 : gv_ok v1) by (split; [exact Hf|split; cbn; lia]).
  assert (G : forall t, vgain_at v2 c t = vgain_at v1 c (length xs * f_block (gv_fader v1) + t)).
  { assert (Hx' : Forall (fun x => gv_op_ok (length (gv_cur v1)) (f_block (gv_fader v1)) (VProcess x)) xs)
      by (cbn [v1 gv_cur gv_fader]; rewrite Hn; exact Hx).
    clearbody v1. clear - Hok1 Hx' Hr. revert v1 outs Hok1 Hx' Hr.
    induction xs as [|x xs IH]; intros v1 outs Hok1 Hx Hr t.
    - injection Hr as <- _. reflexivity.
    - apply Forall_cons_iff in Hx as [[Hx1 Hx2] Hx]. cbn [map gv_run] in Hr.
      destruct (gv_process_ok v1 x Hok1 Hx1 Hx2) as (v3 & o3 & E3 & Hok3 & Ec & _ & Ef & _).
      rewrite E3 in Hr. cbn [bind] in Hr.
      destruct (gv_run v3 (map VProcess xs)) as [[v4 o4]| |] eqn:E4; cbn [bind] in Hr; try discriminate.
      injection Hr as <- _. rewrite <- Ec, <- Ef in Hx.
      rewrite (IH v3 o4 Hok3 Hx E4 t). rewrite (vgain_next_block v1 x v3 o3) by assumption.
      rewrite Ef. f_equal. simpl length. lia. }
  rewrite G. unfold vgain_at, v1. cbn [gv_cur gv_next gv_counter gv_fader].
  rewrite progress_full, between_1 by lia. reflexivity.
Qed.

(** Setting gains starts the new transition at the previous target. *)
Lemma vset_start v gains v1 c t : gv_ok v -> gv_set v gains = Ok v1 ->
  vgain_at v1 c t = between (nth c (gv_next v) 0) (nth c gains 0)
                            (progress (f_samples (gv_fader v)) (t + 1)).
Proof.
  intros Hok E. unfold gv_set in E. destruct (Nat.eqb _ _); [|discriminate].
  injection E as <-. reflexivity.
Qed.
