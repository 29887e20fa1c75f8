(** Proofs about the model of rcl::SparseGainMatrix. *)
From Verif Require Import Base Num Memory RoutingListModel GainModel GainProofs SparseGainModel SparseGainSpec.
Local Open Scope Qc_scope.

(** *** Vectors *)
Lemma vec_set_ok l : forall k x, (k < length l)%nat ->
  exists l', vec_set l k x = Ok l' /\ length l' = length l
    /\ forall j, nth j l' 0 = if (j =? k)%nat then x else nth j l 0.
Proof.
  induction l as [|y l IH]; intros k x H; cbn in H; [lia|]. destruct k as [|k]; cbn [vec_set].
  - eexists. split; [reflexivity|]. split; [reflexivity|]. intros [|j]; reflexivity.
  - destruct (IH k x ltac:(lia)) as (l' & -> & L & N). cbn [bind].
    eexists. split; [reflexivity|]. split; [cbn; lia|]. intros [|j]; [reflexivity|]. exact (N j).
Qed.
Lemma put_length {A} (l : list A) : forall k x, length (put l k x) = length l.
Proof. induction l as [|y l IH]; intros [|k] x; cbn; auto. Qed.
Lemma put_nth {A} (d : A) l : forall k x j, (k < length l)%nat ->
  nth j (put l k x) d = if (j =? k)%nat then x else nth j l d.
Proof.
  induction l as [|y l IH]; intros k x j H; cbn in H; [lia|]. destruct k as [|k]; destruct j as [|j]; cbn [put nth]; try reflexivity.
  rewrite IH by lia. reflexivity.
Qed.
Lemma elem_ok {A} (d : A) l k : (k < length l)%nat -> elem l k = Ok (nth k l d).
Proof. intros H. unfold elem. rewrite (nth_error_nth' l d H). reflexivity. Qed.

(** *** setRoutings() *)
Definition validc (c : config) : srouting Qc -> Prop := valid (c_inputs c) (c_outputs c) (c_entries c).

Lemma valid_dec c r : {validc c r} + {~ validc c r}.
Proof.
  unfold validc, valid. destruct (lt_dec (s_entry r) (c_entries c)); [|right; lia].
  destruct (lt_dec (s_row r) (c_outputs c)); [|right; lia].
  destruct (lt_dec (s_col r) (c_inputs c)); [left; lia|right; lia].
Qed.
Lemma all_valid_dec c l : {Forall (validc c) l} + {~ Forall (validc c) l}.
Proof. apply Forall_dec. apply valid_dec. Qed.

Lemma write_gains_step c next r l : validc c r -> write_gains c next (r :: l)
  = match vec_set next (s_entry r) (s_gain r) with
    | Ok next' => write_gains c next' l
    | Throw e => (next, Throw e)
    | UB => (next, UB)
    end.
Proof.
  intros (H1 & H2 & H3). cbn [write_gains].
  rewrite (proj2 (Nat.leb_gt _ _) H1), (proj2 (Nat.leb_gt _ _) H2), (proj2 (Nat.leb_gt _ _) H3). reflexivity.
Qed.
Lemma write_gains_bad c next r l : ~ validc c r -> write_gains c next (r :: l) = (next, Throw RuntimeError).
Proof.
  intros H. cbn [write_gains]. destruct (Nat.leb_spec (c_entries c) (s_entry r)); [reflexivity|].
  destruct (Nat.leb_spec (c_outputs c) (s_row r)); [reflexivity|].
  destruct (Nat.leb_spec (c_inputs c) (s_col r)); [reflexivity|]. destruct H. split; [assumption|]. split; assumption.
Qed.

Lemma gain_in_none l k : ~ In k (map s_entry l) -> gain_in l k = None.
Proof.
  intros H. unfold gain_in. destruct (find _ l) eqn:E; [|reflexivity].
  apply find_some in E as [Hi He]. apply Nat.eqb_eq in He. destruct H. subst. now apply in_map.
Qed.

Lemma write_gains_ok c l : is_list l -> Forall (validc c) l -> forall next, length next = c_entries c ->
  exists next', write_gains c next l = (next', Ok tt) /\ length next' = c_entries c
    /\ forall k, nth k next' 0 = match gain_in l k with Some g => g | None => nth k next 0 end.
Proof.
  unfold is_list. induction l as [|r l IH]; intros Hd Hv next Hl.
  - exists next. split; [reflexivity|]. split; [exact Hl|]. reflexivity.
  - apply Forall_cons_iff in Hv as [Hr Hv]. cbn [map] in Hd. apply NoDup_cons_iff in Hd as [Hn Hd].
    rewrite write_gains_step by exact Hr.
    destruct (vec_set_ok next (s_entry r) (s_gain r)) as (n1 & -> & L1 & N1). { rewrite Hl. apply Hr. }
    destruct (IH Hd Hv n1 ltac:(congruence)) as (n2 & E & L2 & N2).
    exists n2. split; [exact E|]. split; [exact L2|]. intros k. rewrite N2, N1.
    unfold gain_in. cbn [find]. rewrite (Nat.eqb_sym (s_entry r) k).
    destruct (Nat.eqb_spec k (s_entry r)) as [->|N]; [|reflexivity].
    pose proof (gain_in_none l (s_entry r) Hn) as G. unfold gain_in in G. rewrite G. reflexivity.
Qed.
(** for any list: never undefined, and the vector keeps its size *)
Lemma write_gains_any c l : forall next, length next = c_entries c ->
  exists next', length next' = c_entries c
    /\ ((Forall (validc c) l /\ write_gains c next l = (next', Ok tt))
        \/ (~ Forall (validc c) l /\ write_gains c next l = (next', Throw RuntimeError))).
Proof.
  induction l as [|r l IH]; intros next Hl.
  - exists next. split; [exact Hl|]. left. split; [constructor|reflexivity].
  - destruct (valid_dec c r) as [Hr|Hr].
    + rewrite write_gains_step by exact Hr.
      destruct (vec_set_ok next (s_entry r) (s_gain r)) as (n1 & -> & L1 & _). { rewrite Hl. apply Hr. }
      destruct (IH n1 ltac:(congruence)) as (n2 & L2 & [[F E]|[F E]]); exists n2; (split; [exact L2|]).
      * left. split; [constructor; assumption|exact E].
      * right. split; [|exact E]. intros X. apply Forall_cons_iff in X. tauto.
    + rewrite write_gains_bad by exact Hr. exists next. split; [exact Hl|]. right. split; [|reflexivity].
      intros X. apply Forall_cons_iff in X. tauto.
Qed.

(** *** Mixing *)
Section Mix.
  Variables (c : config) (s : state) (x : list (list Qc)).
  Hypothesis F : fader_ok (c_fader c).
  Hypothesis Lp : length (s_prev s) = c_entries c.
  Hypothesis Ln : length (s_next s) = c_entries c.
  Hypothesis Lx : length x = c_inputs c.
  Hypothesis Fx : Forall (fun l => length l = f_block (c_fader c)) x.

  Definition gain_now (t k : nat) : Qc :=
    between (nth k (s_prev s) 0) (nth k (s_next s) 0)
            (progress (f_samples (c_fader c)) (s_ramp s * f_block (c_fader c) + t + 1)).
  Definition shaped (outs : list (list Qc)) : Prop :=
    length outs = c_outputs c /\ forall o, (o < c_outputs c)%nat -> length (nth o outs []) = f_block (c_fader c).
  Definition contribution (o t : nat) (r : srouting Qc) : Qc :=
    if (s_row r =? o)%nat then gain_now t (s_entry r) * entry x (s_col r) t else 0.

  Lemma mix_ok l : Forall (validc c) l -> forall outs, shaped outs ->
    exists outs', mix c s x outs l = Ok outs' /\ shaped outs'
      /\ forall o t, (o < c_outputs c)%nat -> (t < f_block (c_fader c))%nat ->
         entry outs' o t = entry outs o t + qsum (map (contribution o t) l).
  Proof.
    induction l as [|r l IH]; intros Hv outs Hs.
    - exists outs. split; [reflexivity|]. split; [exact Hs|]. intros. cbn. ring.
    - apply Forall_cons_iff in Hv as [(V1 & V2 & V3) Hv]. destruct Hs as [S1 S2].
      cbn [mix]. unfold mix_routing.
      rewrite (elem_ok [] x) by lia. cbn [bind]. rewrite (elem_ok [] outs) by lia. cbn [bind].
      rewrite (elem_ok 0 (s_prev s)) by lia. cbn [bind]. rewrite (elem_ok 0 (s_next s)) by lia. cbn [bind].
      assert (Lc : length (nth (s_col r) x []) = f_block (c_fader c)).
      { rewrite Forall_forall in Fx. apply Fx. apply nth_In. lia. }
      destruct (fader_scale_ok (c_fader c) (s_ramp s) (nth (s_entry r) (s_prev s) 0) (nth (s_entry r) (s_next s) 0)
                  (nth (s_col r) x []) (Some (nth (s_row r) outs [])) F Lc) as (o' & Eo & Lo & No).
      { intros a E. injection E as <-. apply S2. exact V2. }
      rewrite Eo. cbn [bind].
      destruct (IH Hv (put outs (s_row r) o')) as (outs' & E & Hs' & N).
      { split; [rewrite put_length; exact S1|]. intros o Ho. rewrite put_nth by lia.
        destruct (Nat.eqb_spec o (s_row r)); [exact Lo|apply S2; exact Ho]. }
      exists outs'. split; [exact E|]. split; [exact Hs'|]. intros o t Ho Ht. rewrite N by assumption.
      cbn [map qsum]. unfold contribution at 2. unfold entry at 1. rewrite put_nth by lia.
      rewrite (Nat.eqb_sym (s_row r) o). destruct (Nat.eqb_spec o (s_row r)) as [->|No'].
      + rewrite No by exact Ht. unfold entry, gain_now. ring.
      + unfold entry. ring.
  Qed.
End Mix.

(** *** Rearrangement into a product with a matrix *)
Lemma qsum_zero l : Forall (fun v => v = 0) l -> qsum l = 0.
Proof. induction 1 as [|v l -> _ IH]; cbn; [reflexivity|]. rewrite IH. ring. Qed.
Lemma qsum_pick (f : nat -> Qc) n : forall a i, (a <= i < a + n)%nat ->
  qsum (map (fun j => if (i =? j)%nat then f j else 0) (seq a n)) = f i.
Proof.
  induction n as [|n IH]; intros a i H; [lia|]. cbn [seq map qsum]. destruct (Nat.eqb_spec i a) as [->|N].
  - rewrite qsum_zero; [ring|]. apply Forall_forall. intros v Hv. apply in_map_iff in Hv as (j & <- & Hj).
    apply in_seq in Hj. destruct (Nat.eqb_spec a j); [lia|reflexivity].
  - rewrite IH by lia. ring.
Qed.
Lemma qsum_plus (A : Type) (f g : A -> Qc) l : qsum (map (fun a => f a + g a) l) = qsum (map f l) + qsum (map g l).
Proof. induction l as [|a l IH]; cbn; [ring|]. rewrite IH. ring. Qed.

Lemma product_routes n l g x o t : Forall (fun r => (s_col r < n)%nat) l ->
  product n (crosspoint l g) x o t
  = qsum (map (fun r => if (s_row r =? o)%nat then g (s_entry r) * entry x (s_col r) t else 0) l).
Proof.
  unfold product. induction l as [|r l IH]; intros H.
  - unfold crosspoint. cbn. rewrite qsum_zero; [reflexivity|]. apply Forall_forall. intros v Hv.
    apply in_map_iff in Hv as (i & <- & _). ring.
  - apply Forall_cons_iff in H as [Hr H]. cbn [map qsum]. rewrite <- IH by exact H.
    rewrite (map_ext _ (fun i => (if (s_col r =? i)%nat
        then (if (s_row r =? o)%nat then g (s_entry r) * entry x i t else 0) else 0)
        + crosspoint l g o i * entry x i t)).
    + rewrite qsum_plus.
      rewrite (qsum_pick (fun i => if (s_row r =? o)%nat then g (s_entry r) * entry x i t else 0) n 0 (s_col r)) by lia.
      reflexivity.
    + intros i. unfold crosspoint at 1. cbn [map qsum]. fold (crosspoint l g o i).
      destruct (s_row r =? o)%nat, (s_col r =? i)%nat; cbn [andb]; ring.
Qed.

(** *** The invariant of the component *)
Record sound (c : config) (s : state) : Prop := Sound {
  sd_fader : fader_ok (c_fader c);
  sd_prev : length (s_prev s) = c_entries c;
  sd_next : length (s_next s) = c_entries c;
  sd_routes : Forall (validc c) (s_routes s);
  sd_ramp : (s_ramp s <= f_periods (c_fader c))%nat;
  sd_gains : forall g, s_new_gains s = Some g -> length g = c_entries c }.

Definition full (c : config) (x : list (list Qc)) : Prop :=
  length x = c_inputs c /\ Forall (fun l => length l = f_block (c_fader c)) x.

Lemma take_list_sound c s : sound c s -> exists s', sound c s' /\
  match s_new_list s with
  | None => s' = s /\ take_list c s = (s, Ok tt)
  | Some l =>
      s_points s' = s_points s /\ s_new_gains s' = s_new_gains s
      /\ ((Forall (validc c) l /\ take_list c s = (s', Ok tt) /\ s_new_list s' = None /\ s_routes s' = l /\ s_ramp s' = 0%nat)
          \/ (~ Forall (validc c) l /\ take_list c s = (s', Throw RuntimeError) /\ s_new_list s' = Some l
              /\ s_routes s' = s_routes s /\ s_ramp s' = s_ramp s))
  end.
Proof.
  intros [H1 H2 H3 H4 H6 H5]. unfold take_list. destruct (s_new_list s) as [l|] eqn:El.
  2:{ exists s. split; [constructor; assumption|]. split; reflexivity. }
  unfold vec_swap. rewrite H2, H3, Nat.eqb_refl. unfold set_routings. cbn [s_next s_prev].
  destruct (write_gains_any c l (s_prev s) H2) as (n & L & [[V E]|[V E]]); rewrite E; cbn [s_prev s_next s_routes s_ramp s_new_list s_points s_new_gains].
  - eexists (State _ _ _ _ _ _ _). split; [|split; [reflexivity|split; [reflexivity|left; split; [exact V|split; [reflexivity|split; [reflexivity|split; reflexivity]]]]]].
    constructor; cbn; try assumption; lia.
  - eexists (State _ _ _ _ _ _ _). split; [|split; [reflexivity|split; [reflexivity|right; split; [exact V|split; [reflexivity|split; [reflexivity|split; reflexivity]]]]]].
    constructor; assumption.
Qed.

Lemma take_gains_sound c s : sound c s -> exists s', take_gains s = (s', Ok tt) /\ sound c s'
  /\ s_routes s' = s_routes s /\ s_new_list s' = s_new_list s /\ s_points s' = s_points s /\ s_new_gains s' = None
  /\ match s_new_gains s with
     | None => s' = s
     | Some g => s_prev s' = s_next s /\ s_next s' = g /\ s_ramp s' = 0%nat
     end.
Proof.
  intros [H1 H2 H3 H4 H6 H5]. unfold take_gains. destruct (s_new_gains s) as [g|] eqn:Eg.
  - unfold vec_swap. rewrite H2, H3, Nat.eqb_refl. eexists (State _ _ _ _ _ _ _). split; [reflexivity|].
    cbn [s_prev s_next s_routes s_ramp s_new_list s_points s_new_gains].
    split; [|split; [reflexivity|split; [reflexivity|split; [reflexivity|split; [reflexivity|split; [reflexivity|split; reflexivity]]]]]].
    constructor; cbn [s_prev s_next s_routes s_ramp s_new_list s_points s_new_gains]; auto; try discriminate; lia.
  - exists s. split; [reflexivity|]. split; [constructor; auto; rewrite Eg; discriminate|].
    split; [reflexivity|]. split; [reflexivity|]. split; [reflexivity|]. split; [exact Eg|]. reflexivity.
Qed.

Definition zeros_ok c : shaped c (repeat (repeat 0 (f_block (c_fader c))) (c_outputs c)).
Proof.
  split; [apply repeat_length|]. intros o Ho. rewrite (nth_indep _ [] (repeat 0 (f_block (c_fader c)))) by (rewrite repeat_length; exact Ho).
  rewrite nth_repeat. apply repeat_length.
Qed.
Lemma zeros_entry c o t : entry (repeat (repeat 0 (f_block (c_fader c))) (c_outputs c)) o t = 0.
Proof.
  unfold entry. destruct (lt_dec o (c_outputs c)) as [Ho|Ho].
  - rewrite (nth_indep _ [] (repeat 0 (f_block (c_fader c)))) by (rewrite repeat_length; exact Ho).
    rewrite nth_repeat. apply nth_repeat.
  - rewrite nth_overflow with (d := []) by (rewrite repeat_length; lia). destruct t; reflexivity.
Qed.

(** process() when no invalid list is waiting *)
Lemma process_good c s x : sound c s -> full c x ->
  (forall l, s_new_list s = Some l -> Forall (validc c) l) ->
  exists s1 s2 s' outs,
    take_list c s = (s1, Ok tt) /\ take_gains (take_points s1) = (s2, Ok tt)
    /\ process c s x = (s', Ok outs) /\ sound c s1 /\ sound c s2 /\ sound c s'
    /\ s_new_list s' = None /\ s_new_gains s' = None /\ s_points s' = []
    /\ s_prev s' = s_prev s2 /\ s_next s' = s_next s2 /\ s_routes s' = s_routes s2
    /\ s_ramp s' = Nat.min (s_ramp s2 + 1) (f_periods (c_fader c))
    /\ block_matches (c_outputs c) (f_block (c_fader c)) outs
         (fun o t => product (c_inputs c) (crosspoint (s_routes s2) (gain_now c s2 t)) x o t).
Proof.
  intros Hs [Lx Fx] Hl. destruct (take_list_sound c s Hs) as (s1 & S1 & H1).
  assert (E1 : take_list c s = (s1, Ok tt) /\ s_new_list s1 = None /\ s_routes s1 = s_routes s1).
  { destruct (s_new_list s) as [l|] eqn:El.
    - destruct H1 as (_ & _ & [(V & E & N & _)|(V & _)]); [split; [exact E|split; [exact N|reflexivity]]|].
      destruct V. apply Hl. reflexivity.
    - destruct H1 as [-> E]. split; [exact E|]. split; [exact El|reflexivity]. }
  destruct E1 as (E1 & N1 & _).
  assert (S1' : sound c (take_points s1)). { destruct S1. constructor; assumption. }
  destruct (take_gains_sound c (take_points s1) S1') as (s2 & E2 & S2 & R2 & L2 & P2 & G2 & _).
  cbn [take_points s_new_list s_points] in L2, P2.
  destruct (mix_ok c s2 x (sd_fader _ _ S2) (sd_prev _ _ S2) (sd_next _ _ S2) Lx Fx (s_routes s2) (sd_routes _ _ S2)
              _ (zeros_ok c)) as (outs & Em & Sh & Nm).
  eexists s1, s2, (State _ _ _ _ _ _ _), outs. split; [exact E1|]. split; [exact E2|].
  split; [unfold process; rewrite E1, E2, Em; reflexivity|].
  cbn [s_prev s_next s_routes s_ramp s_new_list s_points s_new_gains].
  split; [exact S1|]. split; [exact S2|]. split.
  { destruct S2. constructor; cbn; try assumption; lia. }
  split; [congruence|]. split; [exact G2|]. split; [exact P2|].
  split; [reflexivity|]. split; [reflexivity|]. split; [reflexivity|]. split; [reflexivity|].
  destruct Sh as [Sh1 Sh2]. split; [exact Sh1|]. split; [exact Sh2|]. intros o t Ho Ht. rewrite Nm by assumption.
  rewrite zeros_entry, product_routes; [unfold contribution; ring|].
  eapply Forall_impl; [|exact (sd_routes _ _ S2)]. intros r (_ & _ & V). exact V.
Qed.

(** process() when an invalid list is waiting *)
Lemma process_bad c s x l : sound c s -> s_new_list s = Some l -> ~ Forall (validc c) l ->
  exists s', process c s x = (s', Throw RuntimeError) /\ sound c s' /\ s_new_list s' = Some l
    /\ s_routes s' = s_routes s /\ s_new_gains s' = s_new_gains s /\ s_points s' = s_points s.
Proof.
  intros Hs El V. destruct (take_list_sound c s Hs) as (s1 & S1 & H1). rewrite El in H1.
  destruct H1 as (P & G & [(V' & _)|(_ & E & N & R & _)]); [contradiction|].
  exists s1. unfold process. rewrite E. split; [reflexivity|]. split; [exact S1|]. split; [exact N|]. split; [exact R|]. split; assumption.
Qed.

(** *** The transition that a state stands for *)
Record stands_for (c : config) (s : state) (T : transition) : Prop := StandsFor {
  sf_routes : t_routes T = s_routes s;
  sf_from : forall k, (k < c_entries c)%nat -> t_from T k = nth k (s_prev s) 0;
  sf_to : forall k, (k < c_entries c)%nat -> t_to T k = nth k (s_next s) 0;
  sf_age : exists n, t_age T = (n * f_block (c_fader c))%nat /\ s_ramp s = Nat.min n (f_periods (c_fader c)) }.

Lemma progress_age f n t : fader_ok f ->
  progress (f_samples f) (Nat.min n (f_periods f) * f_block f + t + 1) = progress (f_samples f) (n * f_block f + t + 1).
Proof.
  intros (Hb & Hp & _). destruct (Nat.min_spec n (f_periods f)) as [[L ->]|[L ->]]; [reflexivity|].
  rewrite Hp in *. pose proof (proj1 (periods_spec (f_block f) (f_samples f) _ Hb) (Nat.le_refl _)) as Q.
  rewrite !progress_full; [reflexivity| |]; nia.
Qed.

Lemma crosspoint_ext l g h o i : (forall r, In r l -> g (s_entry r) = h (s_entry r)) -> crosspoint l g o i = crosspoint l h o i.
Proof.
  intros H. unfold crosspoint. f_equal. apply map_ext_in. intros r Hr. rewrite (H r Hr). reflexivity.
Qed.
Lemma product_ext n m m' x o t : (forall i, (i < n)%nat -> m o i = m' o i) -> product n m x o t = product n m' x o t.
Proof.
  intros H. unfold product. f_equal. apply map_ext_in. intros i Hi. apply in_seq in Hi. rewrite H by lia. reflexivity.
Qed.

Lemma output_gain c s T x o t : sound c s -> stands_for c s T ->
  product (c_inputs c) (crosspoint (s_routes s) (gain_now c s t)) x o t
  = output (c_inputs c) (f_samples (c_fader c)) T x o t.
Proof.
  intros S [R1 R2 R3 (n & A1 & A2)]. unfold output. rewrite R1. apply product_ext. intros i _. apply crosspoint_ext.
  intros r Hr. pose proof (sd_routes _ _ S) as V. rewrite Forall_forall in V. destruct (V r Hr) as (V1 & _).
  unfold gain_now, gain. rewrite R2, R3, A1, A2, progress_age by (exact V1 || exact (sd_fader _ _ S)). reflexivity.
Qed.

Lemma take_list_stands c s T s1 : sound c s -> stands_for c s T ->
  (forall l, s_new_list s = Some l -> is_list l /\ Forall (validc c) l) ->
  take_list c s = (s1, Ok tt) ->
  stands_for c s1 (match s_new_list s with Some l => to_list l T | None => T end).
Proof.
  intros [H1 H2 H3 H4 H6 H5] [R1 R2 R3 (n & A1 & A2)] Hl. unfold take_list.
  destruct (s_new_list s) as [l|]; [|intros E; injection E as <-; constructor; eauto].
  unfold vec_swap. rewrite H2, H3, Nat.eqb_refl. unfold set_routings. cbn [s_next s_prev].
  destruct (Hl l eq_refl) as [Hd Hv].
  destruct (write_gains_ok c l Hd Hv (s_prev s) H2) as (nx & E & L & N). rewrite E.
  cbn [s_prev s_next s_routes s_ramp s_new_list s_points s_new_gains]. intros Es. injection Es as <-.
  constructor; cbn [to_list t_routes t_from t_to t_age s_prev s_next s_routes s_ramp].
  - reflexivity.
  - exact R3.
  - intros k Hk. rewrite N. destruct (gain_in l k); [reflexivity|]. apply R2. exact Hk.
  - exists 0%nat. split; reflexivity.
Qed.

Lemma process_stands c s T x : sound c s -> stands_for c s T -> full c x ->
  (forall l, s_new_list s = Some l -> is_list l /\ Forall (validc c) l) ->
  let T' := update (Slot (s_new_list s) (s_new_gains s) x) T in
  exists s' outs, process c s x = (s', Ok outs) /\ sound c s' /\ s_new_list s' = None /\ s_new_gains s' = None
    /\ stands_for c s' (pass (f_block (c_fader c)) T')
    /\ block_matches (c_outputs c) (f_block (c_fader c)) outs (output (c_inputs c) (f_samples (c_fader c)) T' x).
Proof.
  intros Hs R Hx Hl T'.
  destruct (process_good c s x Hs Hx (fun l E => proj2 (Hl l E)))
    as (s1 & s2 & s' & outs & E1 & E2 & E & S1 & S2 & S' & N1 & N2 & _ & Ep & En & Er & Era & M).
  pose proof (take_list_stands c s T s1 Hs R Hl E1) as R1.
  assert (G1 : s_new_gains s1 = s_new_gains s).
  { destruct (take_list_sound c s Hs) as (z & _ & H). rewrite E1 in H. destruct (s_new_list s).
    - destruct H as (_ & G & [(_ & Ez & _)|(_ & Ez & _)]); injection Ez as ->; exact G.
    - destruct H as [_ Ez]. injection Ez as ->. reflexivity. }
  assert (R2 : stands_for c s2 T').
  { assert (S1' : sound c (take_points s1)). { destruct S1. constructor; assumption. }
    destruct (take_gains_sound c (take_points s1) S1') as (z & Ez & _ & Rz & _ & _ & _ & Hz).
    rewrite E2 in Ez. injection Ez as <-. cbn [take_points s_new_gains s_next s_routes] in Rz, Hz. rewrite G1 in Hz.
    unfold T', update. cbn [e_list e_gains]. destruct (s_new_gains s) as [g|].
    - destruct Hz as (Z1 & Z2 & Z3). destruct R1 as [Q1 Q2 Q3 _].
      constructor; cbn [to_gains t_routes t_from t_to t_age]; rewrite ?Rz, ?Z1, ?Z2, ?Z3; auto.
      exists 0%nat. split; reflexivity.
    - rewrite Hz. destruct R1 as [Q1 Q2 Q3 Q4]. constructor; assumption. }
  exists s', outs. split; [exact E|]. split; [exact S'|]. split; [exact N1|]. split; [exact N2|]. split.
  - destruct R2 as [Q1 Q2 Q3 (n & Q4 & Q5)]. constructor; cbn [pass t_routes t_from t_to t_age]; rewrite ?Ep, ?En, ?Er, ?Era; auto.
    exists (S n). split; [lia|]. rewrite Q5. lia.
  - destruct M as (M1 & M2 & M3). split; [exact M1|]. split; [exact M2|]. intros o t Ho Ht.
    rewrite M3 by assumption. apply output_gain; assumption.
Qed.

(** *** Histories *)
(** the calls of a block *)
Definition calls (e : slot) : list op :=
  match e_list e with Some l => [NewList l] | None => [] end
  ++ match e_gains e with Some g => [NewGains g] | None => [] end ++ [Process (e_in e)].

Lemma perform_app c : forall a b s, perform c s (a ++ b)
  = let '(s1, r1) := perform c s a in let '(s2, r2) := perform c s1 b in (s2, r1 ++ r2).
Proof.
  induction a as [|o a IH]; intros b s; cbn [app perform].
  - destruct (perform c s b). reflexivity.
  - destruct (step c s o) as [s1 r]. rewrite IH. destruct (perform c s1 a) as [s2 r2]. destruct (perform c s2 b) as [s3 r3].
    destruct r; reflexivity.
Qed.

Definition with_list (s : state) (l : option (list routing)) : state :=
  State (s_prev s) (s_next s) (s_routes s) (s_ramp s) (match l with Some _ => l | None => s_new_list s end) (s_points s) (s_new_gains s).
Definition with_gains (s : state) (g : option (list Qc)) : state :=
  State (s_prev s) (s_next s) (s_routes s) (s_ramp s) (s_new_list s) (s_points s) (match g with Some _ => g | None => s_new_gains s end).

Lemma calls_perform c s e : perform c s (calls e)
  = let '(s', r) := process c (with_gains (with_list s (e_list e)) (e_gains e)) (e_in e) in (s', [r]).
Proof.
  unfold calls, with_list, with_gains. destruct e as [[l|] [g|] x], s as [q1 q2 q3 q4 q5 q6 q7]; cbn [e_list e_gains e_in app perform step s_prev s_next s_routes s_ramp s_new_list s_points s_new_gains];
    unfold routing; match goal with |- context [process ?a ?b ?d] => destruct (process a b d) end; reflexivity.
Qed.

Definition slot_okc (c : config) (e : slot) : Prop :=
  slot_ok (c_inputs c) (c_outputs c) (c_entries c) (f_block (c_fader c)) e.

Lemma run_stands c : forall es s T, sound c s -> stands_for c s T -> s_new_list s = None -> s_new_gains s = None ->
  Forall (slot_okc c) es ->
  exists s' outs, perform c s (concat (map calls es)) = (s', map Ok outs)
    /\ sound c s' /\ s_new_list s' = None /\ s_new_gains s' = None
    /\ Forall2 (block_matches (c_outputs c) (f_block (c_fader c))) outs
         (expected (c_inputs c) (f_block (c_fader c)) (f_samples (c_fader c)) T es).
Proof.
  induction es as [|e es IH]; intros s T Hs R N1 N2 He.
  - exists s, []. split; [reflexivity|]. split; [exact Hs|]. split; [exact N1|]. split; [exact N2|]. constructor.
  - apply Forall_cons_iff in He as [(E1 & E2 & E3 & E4) He]. cbn [map concat].
    set (s0 := with_gains (with_list s (e_list e)) (e_gains e)).
    assert (S0 : sound c s0).
    { destruct Hs. constructor; try assumption. cbn. intros g Eg. destruct (e_gains e) as [g'|] eqn:Ee; [|auto].
      injection Eg as <-. apply E2. reflexivity. }
    assert (R0 : stands_for c s0 T). { destruct R. constructor; assumption. }
    assert (L0 : s_new_list s0 = e_list e). { unfold s0. cbn. destruct (e_list e); [reflexivity|exact N1]. }
    assert (G0 : s_new_gains s0 = e_gains e). { unfold s0. cbn. destruct (e_gains e); [reflexivity|exact N2]. }
    destruct (process_stands c s0 T (e_in e) S0 R0) as (s' & outs & Ep & S' & N1' & N2' & R' & M).
    { split; assumption. } { intros l El. rewrite L0 in El. exact (E1 l El). }
    rewrite L0, G0 in M, R'.
    destruct (IH s' _ S' R' N1' N2' He) as (s'' & outs' & E' & S'' & N1'' & N2'' & F).
    exists s'', (outs :: outs'). rewrite perform_app, calls_perform. fold s0. rewrite Ep, E'.
    split; [reflexivity|]. split; [exact S''|]. split; [exact N1''|]. split; [exact N2''|].
    cbn [expected]. destruct e as [el eg ei]. constructor; [exact M|]. exact F.
Qed.

(** *** Construction *)
Lemma construct_ok inputs outputs block steps entries l : (0 < block)%nat ->
  exists c, c_inputs c = inputs /\ c_outputs c = outputs /\ c_entries c = entries
    /\ f_block (c_fader c) = block /\ f_samples (c_fader c) = steps
    /\ ((Forall (validc c) l /\ exists s, construct inputs outputs block steps entries l = Ok (c, s)
           /\ sound c s /\ s_new_list s = None /\ s_new_gains s = None
           /\ (is_list l -> stands_for c s (start l)))
        \/ (~ Forall (validc c) l /\ construct inputs outputs block steps entries l = Throw RuntimeError)).
Proof.
  intros Hb. unfold construct. destruct (fader_new_ok block steps Hb) as (f & -> & Hf & Eb & Es). cbn [bind].
  set (c := Config inputs outputs entries f). exists c.
  split; [reflexivity|]. split; [reflexivity|]. split; [reflexivity|]. split; [exact Eb|]. split; [exact Es|].
  unfold set_routings. cbn [s_next s_prev s_routes s_ramp s_new_list s_points s_new_gains].
  assert (Lr : length (repeat 0 entries) = c_entries c) by apply repeat_length.
  destruct (write_gains_any c l _ Lr) as (n & L & [[V E]|[V E]]); [left|right]; (split; [exact V|]).
  - rewrite E. cbn [bind]. eexists (State _ _ _ _ _ _ _). split; [reflexivity|]. split.
    { constructor; cbn [s_prev s_next s_routes s_ramp s_new_list s_points s_new_gains]; auto; [lia|discriminate]. }
    split; [reflexivity|]. split; [reflexivity|]. intros Hd.
    destruct (write_gains_ok c l Hd V _ Lr) as (n' & E' & L' & N). rewrite E in E'. injection E' as <-.
    constructor; cbn [start to_list t_routes t_from t_to t_age s_prev s_next s_routes s_ramp].
    + reflexivity.
    + intros k _. rewrite nth_repeat. reflexivity.
    + intros k _. rewrite N, nth_repeat. reflexivity.
    + exists 0%nat. split; reflexivity.
  - rewrite E. reflexivity.
Qed.

(** *** Arbitrary calls *)
Definition op_fine (c : config) (o : op) : Prop :=
  match o with
  | NewGains g => length g = c_entries c
  | Process x => full c x
  | _ => True
  end.
Lemma process_sound c s x : sound c s -> full c x ->
  exists s' r, process c s x = (s', r) /\ sound c s' /\ (r = Throw RuntimeError \/ exists outs, r = Ok outs).
Proof.
  intros Hs Hx. destruct (s_new_list s) as [l|] eqn:El.
  - destruct (all_valid_dec c l) as [V|V].
    + destruct (process_good c s x Hs Hx) as (_ & _ & s' & outs & _ & _ & E & _ & _ & S' & _).
      { intros l' E. rewrite El in E. injection E as <-. exact V. }
      exists s', (Ok outs). split; [exact E|]. split; [exact S'|]. right. exists outs. reflexivity.
    + destruct (process_bad c s x l Hs El V) as (s' & E & S' & _).
      exists s', (Throw RuntimeError). split; [exact E|]. split; [exact S'|]. left. reflexivity.
  - destruct (process_good c s x Hs Hx) as (_ & _ & s' & outs & _ & _ & E & _ & _ & S' & _).
    { intros l' E. congruence. }
    exists s', (Ok outs). split; [exact E|]. split; [exact S'|]. right. exists outs. reflexivity.
Qed.
Lemma perform_sound c : forall ops s, sound c s -> Forall (op_fine c) ops ->
  exists s' rs, perform c s ops = (s', rs) /\ sound c s'
    /\ Forall (fun r => r = Throw RuntimeError \/ exists outs, r = Ok outs) rs.
Proof.
  induction ops as [|o ops IH]; intros s Hs Ho.
  - exists s, []. split; [reflexivity|]. split; [exact Hs|]. constructor.
  - apply Forall_cons_iff in Ho as [H1 Ho]. cbn [perform].
    assert (D : (exists s1, step c s o = (s1, None) /\ sound c s1)
             \/ exists s1 r, step c s o = (s1, Some r) /\ sound c s1 /\ (r = Throw RuntimeError \/ exists outs, r = Ok outs)).
    { destruct o as [l|p|g|x]; cbn [step op_fine] in *.
      - left. eexists. split; [reflexivity|]. destruct Hs. constructor; assumption.
      - left. eexists. split; [reflexivity|]. destruct Hs. constructor; assumption.
      - left. eexists. split; [reflexivity|]. destruct Hs. constructor; try assumption. cbn. intros g' E. injection E as <-. exact H1.
      - right. destruct (process_sound c s x Hs H1) as (s' & r & -> & S' & D). eauto. }
    destruct D as [(s1 & -> & S1)|(s1 & r & -> & S1 & D)]; destruct (IH s1 S1 Ho) as (s' & rs & -> & S' & F).
    + exists s', rs. split; [reflexivity|]. split; [exact S'|exact F].
    + exists s', (r :: rs). split; [reflexivity|]. split; [exact S'|]. constructor; assumption.
Qed.

(** *** Blocks without updates *)
Definition silent (x : list (list Qc)) : slot := Slot None None x.
Definition aged (n : nat) (T : transition) : transition := Transition (t_routes T) (t_from T) (t_to T) (t_age T + n).

Lemma expected_silent inputs block steps : forall xs T x,
  exists h, expected inputs block steps T (map silent (xs ++ [x]))
    = h ++ [output inputs steps (aged (length xs * block) T) x].
Proof.
  induction xs as [|y xs IH]; intros T x.
  - exists []. cbn. unfold update. cbn. unfold aged. cbn. f_equal. destruct T as [a b d e]. cbn. rewrite Nat.add_0_r. reflexivity.
  - destruct (IH (pass block T) x) as (h & E). cbn [app map expected]. unfold update at 1 2. cbn [silent e_list e_gains e_in].
    rewrite E. eexists (_ :: h). cbn [app]. f_equal. f_equal. f_equal. unfold aged, pass. cbn. f_equal. f_equal. lia.
Qed.
Lemma calls_silent xs : concat (map calls (map silent xs)) = map Process xs.
Proof. induction xs as [|x xs IH]; cbn; [reflexivity|]. now rewrite IH. Qed.

Lemma sound_stands c s : sound c s ->
  stands_for c s (Transition (s_routes s) (fun k => nth k (s_prev s) 0) (fun k => nth k (s_next s) 0) (s_ramp s * f_block (c_fader c))).
Proof.
  intros S. constructor; cbn; auto. exists (s_ramp s). split; [reflexivity|]. pose proof (sd_ramp _ _ S). lia.
Qed.

(** a block with updates, followed by blocks without *)
Lemma update_run c s T e xs x : sound c s -> stands_for c s T ->
  let s0 := with_gains (with_list s (e_list e)) (e_gains e) in
  (forall l, s_new_list s0 = Some l -> is_list l /\ Forall (validc c) l) ->
  (forall g, s_new_gains s0 = Some g -> length g = c_entries c) ->
  full c (e_in e) -> Forall (full c) xs -> full c x ->
  let U := update (Slot (s_new_list s0) (s_new_gains s0) (e_in e)) T in
  exists s' outs out, perform c s (calls e ++ map Process (xs ++ [x])) = (s', map Ok (outs ++ [out]))
    /\ sound c s' /\ s_new_list s' = None /\ s_new_gains s' = None
    /\ length outs = S (length xs)
    /\ block_matches (c_outputs c) (f_block (c_fader c)) out
         (output (c_inputs c) (f_samples (c_fader c)) (aged (S (length xs) * f_block (c_fader c)) U) x).
Proof.
  intros Hs R s0 Hl Hg He Hxs Hx U.
  assert (S0 : sound c s0). { destruct Hs. constructor; try assumption. }
  assert (R0 : stands_for c s0 T). { destruct R. constructor; assumption. }
  destruct (process_stands c s0 T (e_in e) S0 R0 He Hl) as (s1 & o1 & E1 & S1 & N1 & N2 & R1 & M1). fold U in R1, M1.
  destruct (run_stands c (map silent (xs ++ [x])) s1 _ S1 R1 N1 N2) as (s2 & outs & E2 & S2 & N3 & N4 & F).
  { apply Forall_forall. intros e' H. apply in_map_iff in H as (y & <- & Hy).
    split; [discriminate|]. split; [discriminate|]. apply in_app_iff in Hy as [Hy|[<-|[]]]; [|exact Hx].
    rewrite Forall_forall in Hxs. exact (Hxs y Hy). }
  destruct (expected_silent (c_inputs c) (f_block (c_fader c)) (f_samples (c_fader c)) xs (pass (f_block (c_fader c)) U) x) as (h & Eh).
  assert (Lh : length outs = S (length xs)).
  { clear - F. set (es := xs ++ [x]) in *. assert (L : length es = S (length xs)) by (unfold es; rewrite app_length; cbn; lia).
    rewrite <- L. clear L. clearbody es. revert F. generalize (pass (f_block (c_fader c)) U). revert outs.
    induction es as [|y es IH]; intros outs T' F; inversion F; subst; [reflexivity|]. cbn. f_equal. eapply IH. eassumption. }
  rewrite Eh in F. apply Forall2_app_inv_r in F as (a & b & Fa & Fb & ->).
  inversion Fb as [|o o' b' h' Ho Hb]; subst. inversion Hb; subst.
  exists s2, (o1 :: a), o. rewrite perform_app, calls_perform. fold s0. rewrite E1, <- calls_silent, E2.
  split; [reflexivity|]. split; [exact S2|]. split; [exact N3|]. split; [exact N4|]. split.
  { rewrite app_length in Lh. cbn in *. lia. }
  unfold aged, pass in *. cbn [t_routes t_from t_to t_age] in *.
  replace (t_age U + S (length xs) * f_block (c_fader c))%nat with (t_age U + f_block (c_fader c) + length xs * f_block (c_fader c))%nat by lia.
  exact Ho.
Qed.

Lemma matches_ext n b out f g : block_matches n b out f -> (forall o t, (o < n)%nat -> (t < b)%nat -> f o t = g o t) ->
  block_matches n b out g.
Proof. intros (A & B & D) E. split; [exact A|]. split; [exact B|]. intros. rewrite D by assumption. apply E; assumption. Qed.

Lemma gain_in_member l r : is_list l -> In r l -> gain_in l (s_entry r) = Some (s_gain r).
Proof.
  unfold is_list, gain_in. induction l as [|q l IH]; intros D H; [destruct H|]; destruct H as [->|H]; cbn [find].
  - rewrite Nat.eqb_refl. reflexivity.
  - cbn [map] in D. apply NoDup_cons_iff in D as [N D]. destruct (Nat.eqb_spec (s_entry q) (s_entry r)) as [E|_].
    + destruct N. rewrite E. now apply in_map.
    + apply IH; assumption.
Qed.
Lemma output_full inputs steps T x o t : (steps <= t_age T + t + 1)%nat ->
  output inputs steps T x o t = product inputs (crosspoint (t_routes T) (t_to T)) x o t.
Proof.
  intros H. unfold output. apply product_ext. intros i _. apply crosspoint_ext. intros r _. unfold gain.
  rewrite progress_full by exact H. apply between_1.
Qed.

(** *** Routing points *)
Definition is_point (o : op) : bool := match o with NewPoint _ => true | _ => false end.
Definition same_but_points (a b : state) : Prop :=
  s_prev a = s_prev b /\ s_next a = s_next b /\ s_routes a = s_routes b /\ s_ramp a = s_ramp b
  /\ s_new_list a = s_new_list b /\ s_new_gains a = s_new_gains b.
Lemma process_points c a b x : same_but_points a b ->
  snd (process c a x) = snd (process c b x) /\ same_but_points (fst (process c a x)) (fst (process c b x)).
Proof.
  destruct a as [p n r k l q g], b as [p' n' r' k' l' q' g']. intros (E1 & E2 & E3 & E4 & E5 & E6).
  cbn [s_prev s_next s_routes s_ramp s_new_list s_points s_new_gains] in *. subst p' n' r' k' l' g'.
  assert (Q : exists p1 n1 r1 k1 l1 g1 e1, forall y, take_list c (State p n r k l y g) = (State p1 n1 r1 k1 l1 y g1, e1)).
  { unfold take_list. cbn [s_prev s_next s_routes s_ramp s_new_list s_points s_new_gains].
    destruct l as [l|]; [|repeat eexists; intros; reflexivity].
    destruct (vec_swap p n) as [[a b]| |]; [|repeat eexists; intros; reflexivity..].
    unfold set_routings. cbn [s_prev s_next s_routes s_ramp s_new_list s_points s_new_gains].
    destruct (write_gains c b l) as [w [[]| |]]; cbn [s_prev s_next s_routes s_ramp s_new_list s_points s_new_gains];
      repeat eexists; intros; reflexivity. }
  destruct Q as (p1 & n1 & r1 & k1 & l1 & g1 & e1 & Q). unfold process. rewrite !Q.
  destruct e1 as [[]| |].
  2,3: split; [reflexivity|]; cbn; repeat split.
  unfold take_points. cbn [s_prev s_next s_routes s_ramp s_new_list s_points s_new_gains].
  destruct (take_gains _) as [s2 [[]| |]]; [destruct (mix _ _ _ _ _)|..]; split; try reflexivity; cbn; repeat split.
Qed.
Lemma points_ignored c : forall ops a b, same_but_points a b ->
  snd (perform c a ops) = snd (perform c b (filter (fun o => negb (is_point o)) ops)).
Proof.
  induction ops as [|o ops IH]; intros a b H; [reflexivity|]. destruct o as [l|r|g|x]; cbn [filter is_point negb perform step].
  - destruct H as (E1 & E2 & E3 & E4 & E5 & E6).
    match goal with |- snd (let '(_, _) := perform c ?s1 _ in _) = snd (let '(_, _) := perform c ?s2 _ in _) =>
      specialize (IH s1 s2); destruct (perform c s1 ops), (perform c s2 (filter (fun o => negb (is_point o)) ops)) end.
    cbn [snd] in *. apply IH. cbn. unfold same_but_points. cbn. tauto.
  - match goal with |- snd (let '(_, _) := perform c ?s1 _ in _) = _ => specialize (IH s1 b); destruct (perform c s1 ops) end.
    cbn [snd] in *. apply IH. exact H.
  - destruct H as (E1 & E2 & E3 & E4 & E5 & E6).
    match goal with |- snd (let '(_, _) := perform c ?s1 _ in _) = snd (let '(_, _) := perform c ?s2 _ in _) =>
      specialize (IH s1 s2); destruct (perform c s1 ops), (perform c s2 (filter (fun o => negb (is_point o)) ops)) end.
    cbn [snd] in *. apply IH. unfold same_but_points. cbn. tauto.
  - destruct (process_points c a b x H) as [E1 E2]. destruct (process c a x) as [a1 ra], (process c b x) as [b1 rb].
    cbn [fst snd] in *. subst rb. specialize (IH a1 b1 E2). destruct (perform c a1 ops), (perform c b1 _). cbn [snd] in *. congruence.
Qed.
