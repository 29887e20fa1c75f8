(** Properties C34 (block time) and C35 (profiler statistics). *)
From Verif Require Import Base Num RuntimeModel.
From Coq Require Import Field.
Local Open Scope Qc_scope.

(** ** C34: specification

    The number of calls of process() that returned normally, read off the results. *)
Definition completed {output} (o : @fout output) : nat :=
  match o with FOut (Ok _) => 1 | _ => 0 end.
Definition completed_calls {output} (outs : list (@fout output)) : nat :=
  fold_right (fun o n => (completed o + n)%nat) 0%nat outs.

(** A block run at time [b]: the components of the schedule are called in order up to
    and including the first that throws. *)
Inductive block_run {comp world} (proc : comp -> timeimpl -> world -> world * option exn)
    (t : timeimpl) : list comp -> world -> world -> option exn -> Prop :=
| br_done w : block_run proc t [] w w None
| br_next c cs w w' w'' r :
    proc c t w = (w', None) -> block_run proc t cs w' w'' r ->
    block_run proc t (c :: cs) w w'' r
| br_throw c cs w w' e :
    proc c t w = (w', Some e) -> block_run proc t (c :: cs) w w' (Some e).

Section C34.
  Context {comp world input output : Type}.
  Variable proc : comp -> timeimpl -> world -> world * option exn.
  Variable capture : input -> world -> world.
  Variable playback : world -> output.
  Notation step := (f_step proc capture playback).

  Lemma run_plain_spec t cs : forall w w' r,
    run_plain proc t cs w = (w', r) <-> block_run proc t cs w w' r.
  Proof using.
    induction cs as [|c cs IH]; intros w w' r; cbn.
    - split; [intros [= <- <-]; constructor | inversion 1; subst; reflexivity].
    - destruct (proc c t w) as [w1 [e|]] eqn:E.
      + split; [intros [= <- <-]; now constructor | inversion 1; subst; congruence].
      + rewrite IH. split; [intros H; now apply br_next with w1|].
        inversion 1; subst; [|congruence].
        replace w1 with w'0 by congruence. assumption.
  Qed.

  Lemma run_timed_world clock t cs : forall i timing w,
    (let '(_, w', r) := run_timed proc clock t i cs timing w in (w', r))
    = run_plain proc t cs w.
  Proof using.
    induction cs as [|c cs IH]; intros i timing w; cbn; [reflexivity|].
    destruct (proc c t w) as [w1 [e|]]; [reflexivity|apply IH].
  Qed.

  Lemma execute_spec clock (f : @flow comp) w b f' w' r :
    t_block (f_time f) = Some b ->
    executeComponents proc clock f w = (f', w', r) ->
    (exists x, block_run proc (f_time f) (f_schedule f) w w' x /\
      match x with
      | None => r = Ok tt /\ f_time f' = Time (t_period (f_time f)) (Some (S b))
      | Some e => r = Throw (rethrow RuntimeError e) /\ f_time f' = f_time f
      end) /\ f_schedule f' = f_schedule f.
  Proof using.
    intros Hb. unfold executeComponents.
    assert (Ha : advanceBlockCounter (f_time f)
                 = Ok (Time (t_period (f_time f)) (Some (S b)))).
    { unfold advanceBlockCounter, blockCount. rewrite Hb. reflexivity. }
    destruct (f_prof f) as [p|].
    - pose proof (run_timed_world clock (f_time f) (f_schedule f) 0 (p_cur p) w) as Hw.
      destruct (run_timed proc clock (f_time f) 0 (f_schedule f) (p_cur p) w)
        as [[tm w1] x] eqn:E.
      symmetry in Hw. apply run_plain_spec in Hw.
      destruct x as [e|]; [|rewrite Ha]; intros [= <- <- <-]; cbn;
        (split; [eexists; split; [exact Hw|cbn; auto]|reflexivity]).
    - destruct (run_plain proc (f_time f) (f_schedule f) w) as [w1 x] eqn:Hw.
      apply run_plain_spec in Hw.
      destruct x as [e|]; [|rewrite Ha]; intros [= <- <- <-]; cbn;
        (split; [eexists; split; [exact Hw|cbn; auto]|reflexivity]).
  Qed.

  Lemma step_time (f : @flow comp) w o b :
    t_block (f_time f) = Some b ->
    let '(f', _, out) := step (f, w) o in
    t_block (f_time f') = Some (completed out + b)%nat
    /\ t_period (f_time f') = t_period (f_time f)
    /\ f_schedule f' = f_schedule f.
  Proof using.
    intros Hb. destruct o as [strided clock x| | |o]; cbn.
    - unfold process.
      destruct (executeComponents proc clock f (capture x w)) as [[f1 w1] r] eqn:E.
      destruct (execute_spec clock f _ b _ _ _ Hb E) as [[y [Hy Hr]] Hs].
      destruct y as [e|]; destruct Hr as [-> Ht]; cbn; rewrite Ht; cbn; auto.
    - auto.
    - auto.
    - destruct (f_prof f); [|cbn; auto].
      destruct (p_step p o). cbn. auto.
  Qed.

  (** C34.  After any history of process calls (succeeding or failing, with or without
      profiling) the block counter is the number of calls that returned normally, the
      sample count is that number times the period; inside call number k every component
      called sees the number of blocks completed before, the components are called in
      schedule order up to the first that throws, and a std::exception of a component
      makes process() throw. *)
  Theorem C34_block_time : forall period schedule ops w0,
    let s0 := (f_make (t_make period) schedule, w0) in
    let s := final step s0 ops in
    let n := completed_calls (outputs step s0 ops) in
    blockCount (f_time (fst s)) = Ok n
    /\ sampleCount (f_time (fst s)) = Ok (n * period)%nat
    /\ forall strided clock x,
         let '((f', w'), out) := step s (FProcess strided clock x) in
         exists r, block_run proc (Time period (Some n)) schedule (capture x (snd s)) w' r
         /\ match r with
            | None => out = FOut (Ok (playback w')) /\ blockCount (f_time f') = Ok (S n)
            | Some e => (exists e', out = FOut (Throw e')) /\ blockCount (f_time f') = Ok n
            end.
  Proof using.
    intros period schedule ops w0 s0.
    assert (G : forall ops f w b,
      t_block (f_time f) = Some b -> t_period (f_time f) = period ->
      f_schedule f = schedule ->
      let s := final step (f, w) ops in
      t_block (f_time (fst s))
        = Some (completed_calls (outputs step (f, w) ops) + b)%nat
      /\ t_period (f_time (fst s)) = period /\ f_schedule (fst s) = schedule).
    { clear ops s0. induction ops as [|o ops IH]; intros f w b Hb Hp Hs; [cbn; auto|].
      rewrite final_cons, outputs_cons.
      pose proof (step_time f w o b Hb) as H.
      destruct (step (f, w) o) as [[f1 w1] out]. destruct H as [H1 [H2 H3]].
      cbn [fst snd]. rewrite Hp in H2. rewrite Hs in H3.
      destruct (IH f1 w1 _ H1 H2 H3) as [G1 [G2 G3]].
      cbn zeta. rewrite G1, G2, G3. cbn [completed_calls fold_right].
      unfold completed_calls. repeat split. f_equal. lia. }
    destruct (G ops (f_make (t_make period) schedule) w0 0%nat eq_refl eq_refl eq_refl)
      as [G1 [G2 G3]].
    fold s0 in G1, G2, G3. intros s n. fold s in G1, G2, G3. fold n in G1.
    replace (n + 0)%nat with n in G1 by lia.
    assert (Hbc : blockCount (f_time (fst s)) = Ok n) by (unfold blockCount; now rewrite G1).
    split; [exact Hbc|]. split.
    { unfold sampleCount. rewrite Hbc. cbn. now rewrite G2. }
    intros strided clock x. clearbody s n. destruct s as [f w]. cbn [fst snd] in *.
    cbn [f_step]. unfold process.
    destruct (executeComponents proc clock f (capture x w)) as [[f1 w1] r] eqn:E.
    destruct (execute_spec clock f _ n _ _ _ G1 E) as [[y [Hy Hr]] Hs].
    assert (Ht : f_time f = Time period (Some n)).
    { destruct (f_time f); cbn in *; congruence. }
    rewrite Ht, G3 in Hy.
    destruct y as [e|]; destruct Hr as [-> Ht']; cbn.
    - exists (Some e). split; [exact Hy|]. split; [eexists; reflexivity|].
      unfold blockCount. now rewrite Ht', G1.
    - exists None. split; [exact Hy|]. split; [reflexivity|].
      unfold blockCount. now rewrite Ht'.
  Qed.
End C34.
Print Assumptions C34_block_time.

(** The counter has no value before the flow is initialised: a component that asks for
    the time during its construction reads an indeterminate value. *)
Theorem C34_before_initialisation_refuted : exists period,
  blockCount (t_make period) = UB /\ sampleCount (t_make period) = UB.
Proof. exists 64%nat. split; reflexivity. Qed.
Print Assumptions C34_before_initialisation_refuted.

(** Three components appending their name and the block they see; component 2 throws in
    its second call and component 3 a char pointer in its third. *)
Definition ex_proc (c : nat) (t : timeimpl) (w : list (nat * nat))
  : list (nat * nat) * option exn :=
  let b := match t_block t with Some b => b | None => 99%nat end in
  let w' := w ++ [(c, b)] in
  let calls := length (filter (fun e => Nat.eqb (fst e) c) w') in
  (w', if Nat.eqb c 2 && Nat.eqb calls 2 then Some LogicError
       else if Nat.eqb c 3 && Nat.eqb calls 3 then Some CharPointer else None).
Definition ex_ops : list (@fop nat) :=
  let p := FProcess false (fun _ => 0) 0%nat in
  [p; p; FEnable 2; p; p; FDisable; p].
Example C34_example :
  let step := f_step ex_proc (fun _ w => w) (@length (nat * nat)) in
  let s0 := (f_make (t_make 64) [1; 2; 3]%nat, []) in
  outputs step s0 ex_ops
    = [FOut (Ok 3%nat); FOut (Throw InvalidArgument); FUnit; FOut (Ok 8%nat);
       FOut (Throw CharPointer); FUnit; FOut (Ok 14%nat)]
  /\ snd (final step s0 ex_ops)
    = [(1, 0); (2, 0); (3, 0); (1, 1); (2, 1); (1, 1); (2, 1); (3, 1); (1, 2); (2, 2);
       (3, 2); (1, 2); (2, 2); (3, 2)]%nat
  /\ sampleCount (f_time (fst (final step s0 ex_ops))) = Ok 192%nat.
Proof. vm_compute. repeat split. Qed.

(** ** C35: specification

    The log of the recorded rows: the current row, the rows since the last reset of the
    statistics and the rows since the last reset of the measurements. *)
Record plog := PLog { l_cur : list Qc; l_stat : list (list Qc); l_meas : list (list Qc) }.
Definition log_step (n : nat) (l : plog) (o : pop) : plog :=
  match o with
  | PSetTime i t =>
      if Nat.ltb i n
      then PLog (firstn i (l_cur l) ++ [t] ++ skipn (S i) (l_cur l)) (l_stat l) (l_meas l)
      else l
  | PFinish => PLog (l_cur l) (l_stat l ++ [l_cur l]) (l_meas l ++ [l_cur l])
  | PResetMeasurements | PGetMeasurements => PLog (l_cur l) (l_stat l) []
  | PResetStatistics => PLog (l_cur l) [] (l_meas l)
  | PGetAndReset sm sv =>
      if Nat.eqb sm n && Nat.eqb sv n then PLog (l_cur l) [] (l_meas l) else l
  | _ => l
  end.

(** Mean and unbiased sample variance of a list of values. *)
Definition qsum (l : list Qc) : Qc := fold_right Qcplus 0 l.
Definition sample_mean (l : list Qc) : Qc := qsum l / nq (length l).
Definition sample_variance (l : list Qc) : Qc :=
  qsum (map (fun x => (x - sample_mean l) * (x - sample_mean l)) l) / nq (length l - 1).
(** The values of component [i]. *)
Definition column (i : nat) (log : list (list Qc)) : list Qc := map (fun r => nth i r 0) log.
Definition mean_vector (n : nat) log : list (option Qc) :=
  map (fun i => Some (sample_mean (column i log))) (seq 0 n).
Definition variance_vector (n : nat) (log : list (list Qc)) : list (option Qc) :=
  if Nat.ltb (length log) 2 then repeat None n
  else map (fun i => Some (sample_variance (column i log))) (seq 0 n).

(** What a call may answer; the mean of no values is left open here (see
    [C35_empty_mean_refuted]). *)
Definition answers (n size : nat) (l : plog) (o : pop) (v : pout) : Prop :=
  match o with
  | PSetTime i _ => v = if Nat.ltb i n then VUnit else VErr OutOfRange
  | PFinish | PResetMeasurements | PResetStatistics => v = VUnit
  | PGetMean s =>
      if Nat.eqb s n
      then exists m, v = VVec m /\ (l_stat l <> [] -> m = mean_vector n (l_stat l))
      else v = VErr InvalidArgument
  | PGetVariance s =>
      v = if Nat.eqb s n then VVec (variance_vector n (l_stat l)) else VErr InvalidArgument
  | PGetStatistics sm sv | PGetAndReset sm sv =>
      if Nat.eqb sm n && Nat.eqb sv n
      then exists m, v = VStat m (variance_vector n (l_stat l)) (length (l_stat l))
        /\ (l_stat l <> [] -> m = mean_vector n (l_stat l))
      else v = VErr InvalidArgument
  | PGetMeasurements =>
      exists buf, v = VMeas (length (l_meas l)) buf /\ length buf = size
      /\ forall k, (k < length (l_meas l) -> length (l_meas l) - size <= k ->
           nth_error buf (k mod size) = nth_error (l_meas l) k)%nat
  | PMeasurementSamples => v = VCount (length (l_meas l))
  | PStatisticsSamples => v = VCount (length (l_stat l))
  end.

(** *** Lists indexed by the components *)
Lemma map2_seq {A B C} (f : A -> B -> C) g h s :
  map2 f (map g s) (map h s) = map (fun i : nat => f (g i) (h i)) s.
Proof. induction s; cbn; congruence. Qed.
Lemma as_seq (l : list Qc) n : length l = n -> l = map (fun i => nth i l 0) (seq 0 n).
Proof.
  intros H. apply (nth_ext _ _ 0 0).
  - now rewrite map_length, seq_length.
  - intros k Hk. transitivity (nth k (map (fun i => nth i l 0) (seq 0 n)) (nth 0 l 0)).
    + rewrite (map_nth (fun i => nth i l 0)), seq_nth by lia. reflexivity.
    + apply nth_indep. rewrite map_length, seq_length. lia.
Qed.
Lemma repeat_seq (x : Qc) n : repeat x n = map (fun _ => x) (seq 0 n).
Proof.
  generalize 0%nat. induction n; intros s; cbn; [reflexivity|]. now rewrite <- IHn.
Qed.
Lemma put_length {A} i (x : A) l : length (put i x l) = length l.
Proof. revert i. induction l; intros [|i]; cbn; auto. Qed.
Lemma put_nth {A} i j (x : A) l :
  nth_error (put i x l) j
  = if Nat.eqb i j then option_map (fun _ => x) (nth_error l j) else nth_error l j.
Proof.
  revert i j. induction l as [|a l IH]; intros [|i] [|j]; cbn; auto.
  destruct (Nat.eqb i j); reflexivity.
Qed.
Lemma put_split {A} i (x : A) l : (i < length l)%nat ->
  put i x l = firstn i l ++ [x] ++ skipn (S i) l.
Proof.
  revert i. induction l as [|a l IH]; intros [|i] H; cbn in *; try lia; auto.
  rewrite IH by lia. reflexivity.
Qed.

(** *** Welford's recurrences *)
Definition ssd (l : list Qc) : Qc :=
  qsum (map (fun x => (x - sample_mean l) * (x - sample_mean l)) l).

Lemma qsum_app l m : qsum (l ++ m) = qsum l + qsum m.
Proof. unfold qsum. induction l; cbn; [ring|]. rewrite IHl. ring. Qed.
Lemma qsum_dev c l :
  qsum (map (fun x => (x - c) * (x - c)) l)
  = qsum (map (fun x => x * x) l) - (1 + 1) * c * qsum l + nq (length l) * (c * c).
Proof.
  induction l; cbn -[nq]; [rewrite nq_0; ring|]. rewrite nq_S.
  unfold qsum in *. rewrite IHl. ring.
Qed.
Lemma mean_sum l : qsum l = nq (length l) * sample_mean l.
Proof.
  destruct l; [cbn; rewrite nq_0; ring|].
  unfold sample_mean. field. apply nq_neq_0. cbn. lia.
Qed.
Lemma mean_snoc l x :
  sample_mean (l ++ [x]) = sample_mean l + 1 / nq (length l + 1) * (x - sample_mean l).
Proof.
  unfold sample_mean at 1. rewrite app_length, qsum_app, mean_sum. cbn [length qsum fold_right].
  assert (nq (length l + 1) <> 0) by (apply nq_neq_0; lia).
  rewrite nq_plus in *. rewrite nq_1 in *. field. assumption.
Qed.
Lemma ssd_snoc l x :
  ssd (l ++ [x]) = ssd l + (x - sample_mean l) * (x - sample_mean (l ++ [x])).
Proof.
  unfold ssd. rewrite !qsum_dev, map_app, !qsum_app, app_length, nq_plus.
  cbn [length map qsum fold_right]. rewrite nq_1, mean_snoc, (mean_sum l).
  assert (nq (length l + 1) <> 0) by (apply nq_neq_0; lia).
  rewrite nq_plus in *. rewrite nq_1 in *. field. assumption.
Qed.

(** *** The invariant *)
Record pinv (n size : nat) (p : prof) (l : plog) : Prop := PInv {
  pi_n : p_n p = n;
  pi_cur : p_cur p = l_cur l;
  pi_len : length (l_cur l) = n;
  pi_stat : p_stat p = length (l_stat l);
  pi_meas : p_meas p = length (l_meas l);
  pi_mean : p_mean p = map (fun i => sample_mean (column i (l_stat l))) (seq 0 n);
  pi_m2 : p_m2 p = map (fun i => ssd (column i (l_stat l))) (seq 0 n);
  pi_buf : length (p_buf p) = size;
  pi_back : length (p_back p) = size;
  pi_ring : forall k, (k < length (l_meas l) -> length (l_meas l) - size <= k ->
           nth_error (p_buf p) (k mod size) = nth_error (l_meas l) k)%nat }.

Lemma column_snoc i log row : column i (log ++ [row]) = column i log ++ [nth i row 0].
Proof. unfold column. now rewrite map_app. Qed.
Lemma column_length i log : length (column i log) = length log.
Proof. unfold column. apply map_length. Qed.

Lemma zero_stats n :
  repeat 0 n = map (fun i => sample_mean (column i [])) (seq 0 n)
  /\ repeat 0 n = map (fun i => ssd (column i [])) (seq 0 n).
Proof. split; rewrite repeat_seq; apply map_ext; intros; reflexivity. Qed.

Lemma pinv_init n size : pinv n size (p_make n size) (PLog (repeat 0 n) [] []).
Proof.
  split; cbn; auto using repeat_length.
  - apply zero_stats.
  - apply zero_stats.
  - intros; lia.
Qed.

Lemma finish_inv n size p l :
  pinv n size p l ->
  pinv n size (finishIteration p) (log_step n l PFinish).
Proof.
  intros [Hn Hc Hl Hs Hm Hme Hm2 Hb Hk Hr].
  assert (Hcur : l_cur l = map (fun i => nth i (l_cur l) 0) (seq 0 n)) by now apply as_seq.
  unfold finishIteration, measurementBufferSize.
  assert (E : welford p
    = (map (fun i => sample_mean (column i (l_stat l ++ [l_cur l]))) (seq 0 n),
       map (fun i => ssd (column i (l_stat l ++ [l_cur l]))) (seq 0 n))).
  { unfold welford. destruct (Nat.eqb_spec (p_stat p) 0) as [Ek|Ek].
    - rewrite Ek in Hs. symmetry in Hs. apply length_zero_iff_nil in Hs. rewrite Hs in *. cbn [app].
      f_equal.
      + rewrite Hc, Hcur at 1. apply map_ext. intros i. unfold sample_mean.
        cbn -[nq]. rewrite nq_1. field. discriminate.
      + rewrite Hm2. apply map_ext. intros i. unfold ssd, sample_mean. cbn -[nq].
        rewrite nq_1. field. discriminate.
    - cbv zeta. rewrite Hc, Hcur, Hme, Hm2, Hs.
      rewrite !map2_seq, map_map, !map2_seq. rewrite <- Hcur.
      f_equal; apply map_ext; intros i; rewrite column_snoc.
      + rewrite mean_snoc, column_length. reflexivity.
      + rewrite ssd_snoc, mean_snoc, column_length. reflexivity. }
  rewrite E. clear E. split; cbn; auto.
  - rewrite app_length; cbn. lia.
  - rewrite app_length; cbn. lia.
  - destruct (Nat.eqb (length (p_buf p)) 0); [assumption|]. now rewrite put_length.
  - rewrite app_length; cbn [length]. intros k Hk1 Hk2.
    destruct (Nat.eqb_spec (length (p_buf p)) 0) as [Z|Z].
    + exfalso. lia.
    + rewrite put_nth, Hb, Hm, Hc. rewrite Hb in Z.
      destruct (Nat.eqb_spec (length (l_meas l) mod size) (k mod size)) as [M|M].
      * assert (k = length (l_meas l)) as ->.
        { destruct (Nat.eq_dec k (length (l_meas l))); [assumption|exfalso].
          pose proof (Nat.div_mod k size Z). pose proof (Nat.div_mod (length (l_meas l)) size Z).
          assert (length (l_meas l) / size = k / size \/ length (l_meas l) / size >= S (k / size) \/ length (l_meas l) / size < k / size)%nat as [D|[D|D]] by lia.
          - nia.
          - nia.
          - nia. }
        rewrite nth_error_app2, Nat.sub_diag by lia. cbn.
        destruct (nth_error (p_buf p) (length (l_meas l) mod size)) eqn:En; [reflexivity|].
        apply nth_error_None in En. pose proof (Nat.mod_upper_bound (length (l_meas l)) size Z). lia.
      * assert (k <> length (l_meas l)) by congruence.
        rewrite nth_error_app1 by lia. apply Hr; lia.
Qed.

Lemma mean_ok n size p l : pinv n size p l -> map Some (p_mean p) = mean_vector n (l_stat l).
Proof. intros H. rewrite (pi_mean _ _ _ _ H), map_map. reflexivity. Qed.
Lemma variance_ok n size p l :
  pinv n size p l -> calculateVariance p = variance_vector n (l_stat l).
Proof.
  intros H. unfold calculateVariance, variance_vector.
  rewrite (pi_stat _ _ _ _ H), (pi_n _ _ _ _ H), (pi_m2 _ _ _ _ H).
  destruct (Nat.ltb (length (l_stat l)) 2) eqn:E; [reflexivity|].
  apply Nat.ltb_ge in E. rewrite map_map. apply map_ext. intros i. f_equal.
  unfold sample_variance. fold (ssd (column i (l_stat l))). rewrite column_length.
  field. apply nq_neq_0. lia.
Qed.

Lemma p_step_ok n size p l o :
  pinv n size p l ->
  pinv n size (fst (p_step p o)) (log_step n l o) /\ answers n size l o (snd (p_step p o)).
Proof.
  intros I. pose proof (mean_ok _ _ _ _ I) as Mm. pose proof (variance_ok _ _ _ _ I) as Vm.
  pose proof I as [Hn Hc Hl Hs Hm Hme Hm2 Hb Hk Hr].
  destruct o; cbn [p_step log_step answers].
  - unfold setTime. rewrite Hn. rewrite Nat.leb_antisym.
    destruct (Nat.ltb_spec i n) as [L|L]; cbn; [|auto].
    split; [|reflexivity]. split; cbn; auto.
    + rewrite Hc. apply put_split. lia.
    + transitivity (length (put i t (l_cur l))); [|now rewrite put_length].
      rewrite put_split by lia. reflexivity.
  - split; [now apply finish_inv|reflexivity].
  - split; [|reflexivity]. split; cbn; auto. intros; lia.
  - split; [|reflexivity]. split; cbn; auto; rewrite ?Hme, ?Hm2, map_length, seq_length;
      apply zero_stats.
  - split; [assumption|]. cbn. unfold getMean. rewrite Hn.
    destruct (Nat.eqb_spec size0 n) as [->|D]; [|reflexivity].
    assert (Lm : length (p_mean p) = n) by now rewrite Hme, map_length, seq_length.
    cbn [negb].
    replace (length (if Nat.ltb (p_stat p) 1 then repeat None n else repeat (Some 0) n)) with n
      by (destruct (Nat.ltb (p_stat p) 1); now rewrite repeat_length).
    rewrite Lm, Nat.eqb_refl. cbn. eexists; split; [reflexivity|intros _; assumption].
  - split; [assumption|]. cbn. unfold getVariance. rewrite Hn.
    destruct (Nat.eqb size0 n); cbn; [|reflexivity]. now rewrite Vm.
  - split; [assumption|]. cbn. unfold getStatistics. rewrite Hn.
    destruct (Nat.eqb sm n); cbn; [|reflexivity].
    destruct (Nat.eqb sv n); cbn; [|reflexivity].
    rewrite Vm, Hs. eexists; split; [reflexivity|intros _; assumption].
  - unfold getAndResetStatistics. rewrite Hn.
    destruct (Nat.eqb sm n); cbn; [|auto].
    destruct (Nat.eqb sv n); cbn; [|auto].
    split.
    + split; cbn; auto; rewrite ?Hme, ?Hm2, map_length, seq_length; apply zero_stats.
    + rewrite Vm, Hs. eexists; split; [reflexivity|intros _; assumption].
  - cbn. split.
    + split; cbn; auto. intros; lia.
    + rewrite Hm. eexists; split; [reflexivity|]. split; assumption.
  - split; [assumption|]. cbn. now rewrite Hm.
  - split; [assumption|]. cbn. now rewrite Hs.
Qed.

(** C35.  In every history of calls each answer is the one computed from the log: mean
    and unbiased variance of the rows recorded since the last reset of the statistics,
    their number, and a measurement buffer holding the last min(n,N) rows, row k at
    k mod N. *)
Theorem C35_profiler : forall n size before o,
  answers n size (fold_left (log_step n) before (PLog (repeat 0 n) [] []))
    o (snd (p_step (final p_step (p_make n size) before) o)).
Proof.
  intros n size before o.
  assert (H : forall before p l, pinv n size p l ->
    pinv n size (final p_step p before) (fold_left (log_step n) before l)).
  { clear. induction before as [|o before IH]; intros p l H; [exact H|].
    rewrite final_cons. cbn. apply IH. now apply p_step_ok. }
  apply p_step_ok. apply H, pinv_init.
Qed.
Print Assumptions C35_profiler.

(** Documented (runtime_profiler.hpp 84-92): NaN if nothing was recorded.  The code
    overwrites the NaN values with the zero mean. *)
Theorem C35_empty_mean_refuted : exists n size,
  (n > 0)%nat /\ snd (p_step (p_make n size) (PGetMean n)) <> VVec (repeat None n).
Proof. exists 1%nat, 0%nat. split; [lia|]. cbn. discriminate. Qed.
Print Assumptions C35_empty_mean_refuted.

(** *** The rows recorded by a running flow

    The rows since profiling was enabled, read off the history: a completed block
    contributes the times measured around its components, an aborted block nothing. *)
Record flog := FLog { g_size : nat; g_stat : list (list Qc); g_meas : list (list Qc) }.
Definition flog_step {input output} (n : nat) (l : option flog)
    (o : @fop input) (out : @fout output) : option flog :=
  match o with
  | FEnable size => Some (FLog size [] [])
  | FDisable => None
  | FProcess _ clock _ =>
      match l, out with
      | Some l, FOut (Ok _) =>
          let row := map clock (seq 0 n) in
          Some (FLog (g_size l) (g_stat l ++ [row]) (g_meas l ++ [row]))
      | _, _ => l
      end
  | FProfiler o =>
      match l with
      | Some l =>
          let l' := log_step n (PLog [] (g_stat l) (g_meas l)) o in
          Some (FLog (g_size l) (l_stat l') (l_meas l'))
      | None => None
      end
  end.
(** Calls available to clients: setTime and finishIteration are private. *)
Definition public {input} (o : @fop input) : Prop :=
  match o with FProfiler (PSetTime _ _) | FProfiler PFinish => False | _ => True end.

Section C35Flow.
  Context {comp world input output : Type}.
  Variable proc : comp -> timeimpl -> world -> world * option exn.
  Variable capture : input -> world -> world.
  Variable playback : world -> output.
  Notation step := (f_step proc capture playback).

  Lemma run_timed_length clock t cs : forall i timing w,
    length (fst (fst (run_timed proc clock t i cs timing w))) = length timing.
  Proof using.
    induction cs as [|c cs IH]; intros i timing w; cbn; [reflexivity|].
    destruct (proc c t w) as [w1 [e|]]; [reflexivity|]. now rewrite IH, put_length.
  Qed.
  Lemma run_timed_row clock t cs : forall i timing w w' timing',
    length timing = (i + length cs)%nat ->
    run_timed proc clock t i cs timing w = (timing', w', None) ->
    timing' = firstn i timing ++ map clock (seq i (length cs)).
  Proof using.
    induction cs as [|c cs IH]; intros i timing w w' timing' Hl; cbn.
    - intros [= <- _]. rewrite app_nil_r, firstn_all2; [reflexivity|cbn in Hl; lia].
    - destruct (proc c t w) as [w1 [e|]]; [discriminate|]. cbn in Hl. intros E.
      apply IH in E; [|rewrite put_length; lia]. rewrite E.
      rewrite put_split by lia.
      replace (firstn (S i) (firstn i timing ++ [clock i] ++ skipn (S i) timing))
        with (firstn i timing ++ [clock i]).
      + rewrite <- app_assoc. reflexivity.
      + rewrite app_assoc, firstn_app.
        replace (S i - length (firstn i timing ++ [clock i]))%nat with 0%nat
          by (rewrite app_length, firstn_length; cbn [length]; lia).
        rewrite firstn_O, app_nil_r. symmetry. apply firstn_all2.
        rewrite app_length, firstn_length; cbn [length]; lia.
  Qed.

  Definition finv (n : nat) (f : @flow comp) (l : option flog) : Prop :=
    length (f_schedule f) = n /\ (exists b, t_block (f_time f) = Some b) /\
    match f_prof f, l with
    | None, None => True
    | Some p, Some l => exists cur, pinv n (g_size l) p (PLog cur (g_stat l) (g_meas l))
    | _, _ => False
    end.

  Lemma log_step_cur n c c' st me o :
    match o with PSetTime _ _ | PFinish => False | _ => True end ->
    let a := log_step n (PLog c st me) o in
    let b := log_step n (PLog c' st me) o in
    l_stat a = l_stat b /\ l_meas a = l_meas b /\ l_cur a = c.
  Proof using.
    destruct o; cbn; try tauto; intros _; auto.
    destruct (_ && _); cbn; auto.
  Qed.
  Lemma answers_cur n size c c' st me o v :
    answers n size (PLog c st me) o v -> answers n size (PLog c' st me) o v.
  Proof using. destruct o; cbn; auto. Qed.

  Lemma f_step_ok n f w l o : public o -> finv n f l ->
    finv n (fst (fst (step (f, w) o))) (flog_step n l o (snd (step (f, w) o))).
  Proof using.
    intros Hp (Hs & (b & Hb) & Hi). destruct o as [strided clock x|size| |o].
    - cbn [f_step]. unfold process, executeComponents.
      assert (Ha : advanceBlockCounter (f_time f)
                 = Ok (Time (t_period (f_time f)) (Some (S b)))).
      { unfold advanceBlockCounter, blockCount. rewrite Hb. reflexivity. }
      destruct (f_prof f) as [p|]; destruct l as [l|]; try contradiction.
      + destruct Hi as [cur Hi].
        pose proof (run_timed_length clock (f_time f) (f_schedule f) 0 (p_cur p) (capture x w)) as Hl.
        destruct (run_timed proc clock (f_time f) 0 (f_schedule f) (p_cur p) (capture x w))
          as [[tm w1] r] eqn:E. cbn in Hl.
        pose proof (pi_len _ _ _ _ Hi) as Hc. cbn in Hc.
        pose proof (pi_cur _ _ _ _ Hi) as Hc'. cbn in Hc'. rewrite Hc', Hc in Hl.
        destruct r as [e|]; [|rewrite Ha]; cbn.
        * split; [assumption|]. split; [eauto|]. exists tm.
          destruct Hi; split; cbn in *; auto.
        * split; [assumption|]. split; [eexists; reflexivity|].
          apply run_timed_row in E; [|rewrite Hc'; cbn; lia]. cbn in E.
          rewrite Hs in E. exists tm. rewrite <- E.
          apply (finish_inv n (g_size l) (set_cur p tm) (PLog tm (g_stat l) (g_meas l))).
          destruct Hi; split; cbn in *; auto.
      + destruct (run_plain proc (f_time f) (f_schedule f) (capture x w)) as [w1 [e|]].
        * cbn. split; [assumption|]. split; [eauto|exact I].
        * rewrite Ha. cbn. split; [assumption|]. split; [eexists; reflexivity|exact I].
    - split; [exact Hs|]. split; [exists b; exact Hb|]. cbn [f_step fst snd].
      unfold enableRuntimeProfiling. cbn [f_prof flog_step g_size g_stat g_meas]. rewrite Hs.
      exists (repeat 0 n). apply pinv_init.
    - split; [exact Hs|]. split; [exists b; exact Hb|exact I].
    - cbn [f_step]. destruct (f_prof f) as [p|] eqn:Ep; destruct l as [l|]; try contradiction.
      + destruct Hi as [cur Hi].
        destruct (p_step_ok n (g_size l) p _ o Hi) as [Hi' _].
        destruct (p_step p o) as [p' v]. cbn in *.
        destruct (log_step_cur n cur [] (g_stat l) (g_meas l) o) as (E1 & E2 & E3).
        { destruct o; cbn in Hp; auto. }
        split; [exact Hs|]. split; [exists b; exact Hb|]. exists cur. cbn. rewrite <- E1, <- E2.
        destruct (log_step n (PLog cur (g_stat l) (g_meas l)) o) as [c1 s1 m1].
        cbn in *. subst c1. exact Hi'.
      + cbn. split; [exact Hs|]. split; [exists b; exact Hb|]. now rewrite Ep.
  Qed.

  Fixpoint flogs (n : nat) (l : option flog) (ops : list (@fop input)) (outs : list (@fout output)) :=
    match ops, outs with
    | o :: ops, out :: outs => flogs n (flog_step n l o out) ops outs
    | _, _ => l
    end.

  (** C35 for a running flow: whatever the components do and whichever blocks are
      aborted, the statistics are those of the times measured in the blocks completed
      since profiling was enabled (or reset); a timing measured in an aborted block
      never enters them. *)
  Theorem C35_flow : forall period (schedule : list comp) w0 ops o,
    Forall public ops -> public (FProfiler (input := input) o) ->
    let n := length schedule in
    let s0 := (f_make (t_make period) schedule, w0) in
    let s := final step s0 ops in
    match flogs n None ops (outputs step s0 ops) with
    | None => snd (step s (FProfiler o)) = FProf (VErr LogicError)
    | Some l => exists v, snd (step s (FProfiler o)) = FProf v
        /\ answers n (g_size l) (PLog [] (g_stat l) (g_meas l)) o v
    end.
  Proof using.
    intros period schedule w0 ops o Hops Ho n s0.
    assert (G : forall ops f w l, Forall public ops -> finv n f l ->
      finv n (fst (final step (f, w) ops)) (flogs n l ops (outputs step (f, w) ops))).
    { clear. induction ops as [|o ops IH]; intros f w l Hp Hi; [exact Hi|].
      rewrite final_cons, outputs_cons. cbn [flogs].
      pose proof (f_step_ok n f w l o (Forall_inv Hp) Hi) as H.
      destruct (step (f, w) o) as [[f1 w1] out]. cbn [fst snd] in *.
      apply IH; [exact (Forall_inv_tail Hp)|assumption]. }
    specialize (G ops (f_make (t_make period) schedule) w0 None Hops).
    cbv zeta. fold s0 in G.
    assert (H0 : finv n (fst s0) None) by (repeat split; eexists; reflexivity).
    specialize (G H0). clear H0.
    destruct (final step s0 ops) as [f w]. cbn [fst] in G.
    destruct G as (Gs & _ & G). cbn [f_step].
    destruct (f_prof f) as [p|]; destruct (flogs n None ops (outputs step s0 ops)) as [l|];
      try contradiction; [|reflexivity].
    destruct G as [cur G]. destruct (p_step_ok n (g_size l) p _ o G) as [_ A].
    destruct (p_step p o) as [p' v]. exists v. split; [reflexivity|].
    now apply answers_cur with cur.
  Qed.
End C35Flow.
Print Assumptions C35_flow.

(** Two components, three blocks (the second aborted), buffer of one row. *)
Definition ex_flow_ops : list (@fop nat) :=
  [FEnable 1; FProcess false (fun i => nq (S i)) 0%nat; FProcess false (fun i => nq 9) 0%nat;
   FProcess true (fun i => nq (3 * S i)) 0%nat].
Example C35_example :
  Forall public ex_flow_ops /\
  let step := f_step ex_proc (fun _ w => w) (@length (nat * nat)) in
  let s0 := (f_make (t_make 64) [1; 2]%nat, []) in
  flogs 2 None ex_flow_ops (outputs step s0 ex_flow_ops)
  = Some (FLog 1 [[nq 1; nq 2]; [nq 3; nq 6]] [[nq 1; nq 2]; [nq 3; nq 6]]).
Proof.
  split; [repeat constructor|]. cbv -[nq welford]. reflexivity.
Qed.
Example C35_values : sample_mean [nq 1; nq 3] = nq 2 /\ sample_variance [nq 1; nq 3] = nq 2
  /\ sample_variance [nq 2; nq 6] = nq 8.
Proof. repeat split; apply Qc_is_canon; vm_compute; reflexivity. Qed.
