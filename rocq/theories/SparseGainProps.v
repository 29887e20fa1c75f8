(** Property C75: the sparse gain matrix. *)
From Verif Require Import Base Num Memory RoutingListModel GainModel GainProofs SparseGainModel SparseGainSpec SparseGainProofs.
Local Open Scope Qc_scope.

(** Construction is refused exactly if a routing of the initial list exceeds the numbers of
    entries, outputs or inputs. *)
Theorem C75_construct : forall inputs outputs block steps entries l,
  match construct inputs outputs block steps entries l with
  | Ok _ => (0 < block)%nat /\ Forall (valid inputs outputs entries) l
  | Throw e => (0 < block)%nat /\ e = RuntimeError /\ ~ Forall (valid inputs outputs entries) l
  | UB => block = 0%nat
  end.
Proof.
  intros. destruct block as [|block]; [reflexivity|].
  destruct (construct_ok inputs outputs (S block) steps entries l ltac:(lia)) as (c & <- & <- & <- & _ & _ & [(V & s & -> & _)|(V & ->)]).
  - split; [lia|exact V].
  - split; [lia|]. split; [reflexivity|exact V].
Qed.
Print Assumptions C75_construct.

Section Props.
  Variables (inputs outputs block steps entries : nat) (initial : list (srouting Qc)) (c : config) (s : state).
  Hypothesis built : construct inputs outputs block steps entries initial = Ok (c, s).

  (** a block of input signals *)
  Definition block_ok (x : list (list Qc)) : Prop :=
    length x = inputs /\ Forall (fun l => length l = block) x.
  (** anything may arrive, apart from gain vectors of a different size *)
  Definition call_ok (o : op) : Prop :=
    match o with
    | NewGains g => length g = entries
    | Process x => block_ok x
    | _ => True
    end.

  Lemma built_ok : (c_inputs c = inputs /\ c_outputs c = outputs /\ c_entries c = entries
    /\ f_block (c_fader c) = block /\ f_samples (c_fader c) = steps)
    /\ sound c s /\ s_new_list s = None /\ s_new_gains s = None /\ (is_list initial -> stands_for c s (start initial)).
  Proof.
    destruct block as [|b] eqn:Eb; [discriminate built|]. rewrite <- Eb in *.
    destruct (construct_ok inputs outputs block steps entries initial ltac:(lia)) as (c' & E1 & E2 & E3 & E4 & E5 & [(V & s' & E & H)|(V & E)]);
      rewrite built in E; [|discriminate E]. injection E as <- <-.
    split; [|exact H]. split; [exact E1|]. split; [exact E2|]. split; [exact E3|]. split; assumption.
  Qed.
  Lemma reached ops s1 rs : Forall call_ok ops -> perform c s ops = (s1, rs) ->
    sound c s1 /\ Forall (fun r => r = Throw RuntimeError \/ exists outs, r = Ok outs) rs.
  Proof.
    destruct built_ok as [(E1 & E2 & E3 & E4 & E5) (S & _)]. intros H E.
    destruct (perform_sound c ops s S) as (s' & rs' & E' & S' & F).
    - eapply Forall_impl; [|exact H]. intros [l|r|g|x]; cbn; auto.
      + congruence.
      + unfold full, block_ok. rewrite E1, E4. auto.
    - rewrite E in E'. injection E' as <- <-. split; assumption.
  Qed.

  (** C75: with valid routing lists, the output of every block is the product of the input with
      the matrix of the momentary gains of the entries that the present list routes; see
      [to_list], [to_gains] for the transitions. *)
  Theorem C75_output : forall es, is_list initial -> Forall (slot_ok inputs outputs entries block) es ->
    exists s' outs, perform c s (concat (map calls es)) = (s', map Ok outs)
      /\ Forall2 (block_matches outputs block) outs (expected inputs block steps (start initial) es).
  Proof.
    intros es Hd He. destruct built_ok as [(E1 & E2 & E3 & E4 & E5) (S & N1 & N2 & R)].
    destruct (run_stands c es s (start initial) S (R Hd) N1 N2) as (s' & outs & E & _ & _ & _ & F).
    - unfold slot_okc. rewrite E1, E2, E3, E4. exact He.
    - exists s', outs. split; [exact E|]. rewrite E1, E2, E4, E5 in F. exact F.
  Qed.

  (** C75: whatever arrives, process() either succeeds or throws std::runtime_error. *)
  Theorem C75_safe : forall ops s1 rs, Forall call_ok ops -> perform c s ops = (s1, rs) ->
    Forall (fun r => r = Throw RuntimeError \/ exists outs, r = Ok outs) rs.
  Proof. intros. eapply reached; eassumption. Qed.

  (** C75: an invalid list is never applied.  It makes every later call of process() fail, until
      another list arrives. *)
  Theorem C75_rejected : forall ops s1 rs l xs, Forall call_ok ops -> perform c s ops = (s1, rs) ->
    ~ Forall (valid inputs outputs entries) l ->
    exists s2, perform c s1 (NewList l :: map Process xs) = (s2, repeat (Throw RuntimeError) (length xs))
      /\ s_routes s2 = s_routes s1.
  Proof.
    intros ops s1 rs l xs Ho E V. destruct (reached _ _ _ Ho E) as [S _].
    destruct built_ok as [(E1 & E2 & E3 & E4 & E5) _].
    assert (V' : ~ Forall (validc c) l). { unfold validc. rewrite E1, E2, E3. exact V. }
    cbn [perform step].
    set (s0 := State _ _ _ _ _ _ _). assert (S0 : sound c s0). { destruct S. constructor; assumption. }
    assert (L0 : s_new_list s0 = Some l) by reflexivity. change (s_routes s1) with (s_routes s0).
    clearbody s0. clear - S0 L0 V'. revert s0 S0 L0. induction xs as [|x xs IH]; intros s0 S0 L0.
    - exists s0. split; reflexivity.
    - destruct (process_bad c s0 x l S0 L0 V') as (s1 & E & S1 & L1 & R1 & _).
      destruct (IH s1 S1 L1) as (s2 & E2 & R2). exists s2. cbn [map perform step]. rewrite E.
      destruct (perform c s1 (map Process xs)) as [s3 rs]. injection E2 as -> ->. split; [reflexivity|congruence].
  Qed.

  (** the matrix that a list describes *)
  Definition matrix_of (l : list (srouting Qc)) (o i : nat) : Qc :=
    qsum (map (fun r => if (s_row r =? o)%nat && (s_col r =? i)%nat then s_gain r else 0) l).

  (** C75: whatever has happened before, the matrix described by a valid list is reached within
      the transition time (provided that no gains are waiting, and none arrive). *)
  Theorem C75_list_settles : forall ops s1 rs l x0 xs x, Forall call_ok ops -> perform c s ops = (s1, rs) ->
    s_new_gains s1 = None -> is_list l -> Forall (valid inputs outputs entries) l ->
    Forall block_ok (x0 :: xs ++ [x]) -> (steps <= (1 + length xs) * block + 1)%nat ->
    exists s2 outs out, perform c s1 (NewList l :: map Process (x0 :: xs ++ [x])) = (s2, map Ok (outs ++ [out]))
      /\ length outs = (1 + length xs)%nat
      /\ block_matches outputs block out (product inputs (matrix_of l) x).
  Proof.
    intros ops s1 rs l x0 xs x Ho E G Hd V Hx Hn. destruct (reached _ _ _ Ho E) as [S1 _].
    destruct built_ok as [(E1 & E2 & E3 & E4 & E5) _].
    assert (B : forall y, block_ok y -> full c y). { unfold full, block_ok. rewrite E1, E4. auto. }
    apply Forall_cons_iff in Hx as [H0 Hx]. apply Forall_app in Hx as [Hxs Hx]. apply Forall_cons_iff in Hx as [Hx _].
    destruct (update_run c s1 _ (Slot (Some l) None x0) xs x S1 (sound_stands c s1 S1)) as (s2 & outs & out & Ep & _ & _ & _ & L & M).
    - cbn. intros l' El. injection El as <-. split; [exact Hd|]. unfold validc. rewrite E1, E2, E3. exact V.
    - cbn. intros g Eg. congruence.
    - apply B. exact H0.
    - eapply Forall_impl; [|exact Hxs]. exact B.
    - apply B. exact Hx.
    - exists s2, outs, out. split; [exact Ep|]. split; [exact L|]. rewrite E1, E2, E4, E5 in M.
      eapply matches_ext; [exact M|]. intros o t _ _. cbn [with_list with_gains e_list e_gains s_new_gains s_new_list].
      rewrite G. unfold update. cbn [e_list e_gains]. rewrite output_full by (cbn; lia).
      apply product_ext. intros i _. cbn. unfold matrix_of, crosspoint. f_equal. apply map_ext_in. intros r Hr.
      rewrite (gain_in_member l r Hd Hr). reflexivity.
  Qed.

  (** C75: likewise, new gains are reached within the transition time, and the transition is linear
      from the gains that arrived before them, even if these had not been reached. *)
  Theorem C75_gains : forall ops s1 rs g0 g y ys x0 xs x, Forall call_ok ops -> perform c s ops = (s1, rs) ->
    s_new_list s1 = None -> length g0 = entries -> length g = entries ->
    Forall block_ok (y :: ys ++ x0 :: xs ++ [x]) ->
    exists s2 outs out,
      perform c s1 (NewGains g0 :: map Process (y :: ys) ++ NewGains g :: map Process (x0 :: xs ++ [x])) = (s2, map Ok (outs ++ [out]))
      /\ length outs = (2 + length ys + length xs)%nat
      /\ block_matches outputs block out
           (fun o t => product inputs
              (fun o i => between (crosspoint (s_routes s1) (fun k => nth k g0 0) o i)
                                  (crosspoint (s_routes s1) (fun k => nth k g 0) o i)
                                  (progress steps ((1 + length xs) * block + t + 1))) x o t).
  Proof.
    intros ops s1 rs g0 g y ys x0 xs x Ho E L G0 G Hx. destruct (reached _ _ _ Ho E) as [S1 _].
    destruct built_ok as [(E1 & E2 & E3 & E4 & E5) _].
    assert (B : forall z, block_ok z -> full c z). { unfold full, block_ok. rewrite E1, E4. auto. }
    apply Forall_cons_iff in Hx as [Hy Hx]. apply Forall_app in Hx as [Hys Hx].
    apply Forall_cons_iff in Hx as [H0 Hx]. apply Forall_app in Hx as [Hxs Hx]. apply Forall_cons_iff in Hx as [Hx _].
    change (NewGains g0 :: map Process (y :: ys) ++ NewGains g :: map Process (x0 :: xs ++ [x]))
      with (NewGains g0 :: Process y :: map Process ys ++ calls (Slot None (Some g) x0) ++ map Process (xs ++ [x])).
    set (s0 := with_gains s1 (Some g0)).
    assert (S0 : sound c s0). { destruct S1. constructor; try assumption. cbn. intros z Ez. injection Ez as <-. congruence. }
    destruct (process_stands c s0 _ y S0 (sound_stands c s0 S0) (B y Hy)) as (s2 & o2 & P2 & S2 & N2 & M2 & R2 & _).
    { cbn. intros l El. congruence. }
    set (T := pass _ _) in R2.
    assert (RT : t_routes T = s_routes s1 /\ t_to T = (fun k => nth k g0 0)).
    { unfold T, pass, update. cbn. rewrite L. split; reflexivity. }
    clearbody T.
    (* the silent blocks before the new gains *)
    assert (Q : exists s3 os T3, perform c s2 (map Process ys) = (s3, map Ok os) /\ length os = length ys
              /\ sound c s3 /\ s_new_list s3 = None /\ s_new_gains s3 = None /\ stands_for c s3 T3
              /\ t_routes T3 = s_routes s1 /\ t_to T3 = (fun k => nth k g0 0)).
    { clear - R2 RT S2 N2 M2 Hys B. revert s2 T R2 RT S2 N2 M2. induction ys as [|z zs IH]; intros s2 T R2 RT S2 N2 M2.
      - exists s2, [], T. split; [reflexivity|]. split; [reflexivity|]. repeat (split; [assumption|]). exact RT.
      - apply Forall_cons_iff in Hys as [Hz Hzs].
        destruct (process_stands c s2 T z S2 R2 (B z Hz)) as (s3 & o3 & P3 & S3 & N3 & M3 & R3 & _). { congruence. }
        rewrite N2, M2 in R3. unfold update in R3. cbn [e_list e_gains] in R3.
        destruct (IH Hzs s3 _ R3 RT S3 N3 M3) as (s4 & os & T4 & P4 & L4 & Q).
        exists s4, (o3 :: os), T4. cbn [map perform step]. rewrite P3, P4. split; [reflexivity|]. split; [cbn; lia|]. exact Q. }
    destruct Q as (s3 & os & T3 & P3 & L3 & S3 & N3 & M3 & R3 & RT3 & TT3).
    destruct (update_run c s3 T3 (Slot None (Some g) x0) xs x S3 R3) as (s4 & outs & out & P4 & _ & _ & _ & L4 & M4).
    { cbn. intros l El. congruence. } { cbn. intros z Ez. injection Ez as <-. congruence. }
    { apply B. exact H0. } { eapply Forall_impl; [|exact Hxs]. exact B. } { apply B. exact Hx. }
    exists s4, (o2 :: os ++ outs), out. cbn [perform step].
    change (State (s_prev s1) (s_next s1) (s_routes s1) (s_ramp s1) (s_new_list s1) (s_points s1) (Some g0)) with s0.
    rewrite P2, perform_app, P3, P4. split.
    { cbn [app map]. rewrite !map_app, <- app_assoc. reflexivity. }
    split; [cbn [length]; rewrite app_length; lia|].
    rewrite E1, E2, E4, E5 in M4. eapply matches_ext; [exact M4|]. intros o t _ _.
    cbn [with_list with_gains e_list e_gains s_new_gains s_new_list]. rewrite N3.
    unfold output, update. cbn [e_list e_gains]. apply product_ext. intros i _.
    unfold gain, aged, to_gains. cbn [t_routes t_from t_to t_age]. rewrite RT3, TT3.
    change (0 + S (length xs) * block)%nat with ((1 + length xs) * block)%nat.
    generalize (progress steps ((1 + length xs) * block + t + 1)). intros q. unfold crosspoint.
    clear. induction (s_routes s1) as [|r l IH]; cbn [map qsum]; [unfold between; ring|]. rewrite IH.
    destruct ((s_row r =? o)%nat && (s_col r =? i)%nat); unfold between; ring.
  Qed.

  (** C75: routing points have no effect at all. *)
  Theorem C75_points_ignored : forall ops,
    snd (perform c s ops) = snd (perform c s (filter (fun o => match o with NewPoint _ => false | _ => true end) ops)).
  Proof.
    intros ops. rewrite (points_ignored c ops s s).
    - f_equal. f_equal. apply filter_ext. intros []; reflexivity.
    - unfold same_but_points. tauto.
  Qed.
End Props.
Print Assumptions C75_output.
Print Assumptions C75_safe.
Print Assumptions C75_rejected.
Print Assumptions C75_list_settles.
Print Assumptions C75_gains.
Print Assumptions C75_points_ignored.

(** *** Refuted: smooth transitions *)
(** A signal path that is only ever set to gains between 0 and 1, with an input of constant value
    1, should not change by more than 1/steps from one sample to the next. *)
Definition smooth (steps : nat) (ys : list Qc) : Prop :=
  forall t, (S t < length ys)%nat -> qabs (nth (S t) ys 0 - nth t ys 0) * nq steps <= 1.
Definition unit_gain (q : Qc) : Prop := 0 <= q /\ q <= 1.
Definition unit_op (o : op) : Prop :=
  match o with
  | NewList l => is_list l /\ Forall (fun r => valid 1 1 2 r /\ unit_gain (s_gain r)) l
  | NewPoint _ => False
  | NewGains g => length g = 2%nat /\ Forall unit_gain g
  | Process x => x = [[1]]
  end.
Definition first_output (rs : list (res (list (list Qc)))) : list Qc :=
  concat (map (fun r => match r with Ok o => nth 0 o [] | _ => [] end) rs).
Definition path (initial : list (srouting Qc)) (ops : list op) : list Qc :=
  match construct 1 1 1 4 2 initial with
  | Ok (c, s) => first_output (snd (perform c s ops))
  | _ => []
  end.
Definition P : op := Process [[1]].
Definition direct (g : Qc) : list (srouting Qc) := [MkS 0%nat 0%nat 0%nat g].

Lemma jump ys t : (S t < length ys)%nat -> 1 < qabs (nth (S t) ys 0 - nth t ys 0) * nq 4 -> ~ smooth 4 ys.
Proof. intros L J H. apply (Qclt_not_le _ _ J). apply H. exact L. Qed.
Ltac closed := vm_compute; reflexivity.
Ltac unit_ops := repeat (constructor; cbn [unit_op]; try reflexivity);
  repeat match goal with
  | |- _ /\ _ => split
  | |- Forall _ (_ :: _) => constructor
  | |- Forall _ [] => constructor
  | |- is_list _ => unfold is_list; cbn
  | |- ~ In _ _ => cbn; intuition lia
  | |- NoDup _ => constructor
  | |- valid _ _ _ _ => unfold valid; cbn; lia
  | |- unit_gain _ => split; vm_compute; intros X0; discriminate X0
  | |- length _ = _ => reflexivity
  | |- _ <= _ => vm_compute; intros X0; discriminate X0
  end.

(** A transition that is interrupted continues from the value it had been heading for. *)
Theorem C75_interrupted_refuted : exists ops, Forall unit_op ops /\ ~ smooth 4 (path (direct 0) ops).
Proof.
  exists [P; NewGains [1; 0]; P; NewGains [0; 0]; P]. split; [unit_ops|].
  apply (jump _ 1%nat); closed.
Qed.
Print Assumptions C75_interrupted_refuted.

(** If a list and gains arrive in the same block, the transition starts from the gains of the list. *)
Theorem C75_both_refuted : exists ops, Forall unit_op ops /\ ~ smooth 4 (path (direct 0) ops).
Proof.
  exists [P; NewList (direct 1); NewGains [0; 0]; P]. split; [unit_ops|].
  apply (jump _ 0%nat); closed.
Qed.
Print Assumptions C75_both_refuted.

(** A routing that is not part of the new list is dropped at once. *)
Theorem C75_removed_refuted : exists ops, Forall unit_op ops /\ ~ smooth 4 (path (direct 1) ops).
Proof.
  exists [P; P; P; P; NewList []; P]. split; [unit_ops|].
  apply (jump _ 3%nat); closed.
Qed.
Print Assumptions C75_removed_refuted.

(** A routing that reappears starts from the gain it had earlier. *)
Theorem C75_added_refuted : exists ops, Forall unit_op ops /\ ~ smooth 4 (path [] ops).
Proof.
  exists [NewGains [1; 1]; P; P; P; P; NewList (direct 1); P]. split; [unit_ops|].
  apply (jump _ 3%nat); closed.
Qed.
Print Assumptions C75_added_refuted.

(** After a new list, the gain of an entry outside of the list is the one before the last update:
    a list that removes nothing and adds nothing still changes the gains of unrouted entries, so
    that routing them later with the present gain is a transition from an outdated gain. *)
Theorem C75_stale_refuted : exists ops, Forall unit_op ops /\ ~ smooth 4 (path (direct 0) ops).
Proof.
  exists [NewGains [0; 1]; P; P; P; P; NewGains [0; 0]; P; P; P; P; NewList (direct 0); P; P; P; P;
          NewList [MkS 0%nat 0%nat 0%nat 0; MkS 1%nat 0%nat 0%nat 0]; P].
  split; [unit_ops|]. apply (jump _ 11%nat); closed.
Qed.
Print Assumptions C75_stale_refuted.

(** *** Refuted: a routing point sets the gain *)
Theorem C75_points_refuted : exists r, valid 1 1 2 r /\ s_gain r = 1
  /\ forall n, Forall (fun y => y = 0) (path (direct 0) (NewPoint r :: repeat P n)).
Proof.
  exists (MkS 0%nat 0%nat 0%nat 1). split; [unfold valid; cbn; lia|]. split; [reflexivity|]. intros n.
  unfold path. destruct (construct 1 1 1 4 2 (direct 0)) as [[c s]| |] eqn:E; [|constructor..].
  pose proof (C75_output _ _ _ _ _ _ c s E (repeat (Slot None None [[1]]) n)) as H.
  destruct H as (s' & outs & H & F).
  - unfold is_list. cbn. constructor; [cbn; tauto|constructor].
  - apply Forall_forall. intros e He. apply repeat_spec in He. subst e.
    split; [discriminate|]. split; [discriminate|]. split; [reflexivity|]. constructor; [reflexivity|constructor].
  - rewrite (C75_points_ignored c s). cbn [filter].
    assert (X : filter (fun o => match o with NewPoint _ => false | _ => true end) (repeat P n) = concat (map calls (repeat (Slot None None [[1]]) n))).
    { clear. induction n as [|n IH]; [reflexivity|]. cbn. rewrite IH. reflexivity. }
    rewrite X, H. cbn [snd]. clear - F. revert F.
    assert (Z : t_from (start (direct 0)) 0%nat = 0 /\ t_to (start (direct 0)) 0%nat = 0 /\ t_routes (start (direct 0)) = direct 0)
      by (split; [reflexivity|split; reflexivity]).
    revert Z. generalize (start (direct 0)). revert outs. induction n as [|n IH]; intros outs T (Z1 & Z2 & Z3) F.
    + inversion F. constructor.
    + cbn [repeat expected] in F. inversion F as [|o e os es (L1 & L2 & M) Fo]; subst.
      unfold first_output. cbn [map concat]. apply Forall_app. split.
      * apply Forall_forall. intros y Hy. apply (In_nth _ _ 0) in Hy as (t & Ht & <-).
        specialize (L2 0%nat ltac:(lia)). specialize (M 0%nat t ltac:(lia) ltac:(lia)). unfold entry in M at 1. rewrite M.
        unfold output, product, crosspoint, gain, update. cbn [e_list e_gains]. rewrite Z3. cbn. rewrite Z1, Z2, between_same. ring.
      * apply (IH os (pass 1 T)); [split; [exact Z1|split; [exact Z2|exact Z3]]|exact Fo].
Qed.
Print Assumptions C75_points_refuted.

(** *** Refuted: gains of a different size are noticed *)
Theorem C75_gain_size_refuted : exists c s s', construct 1 1 1 4 2 (direct 1) = Ok (c, s)
  /\ perform c s [NewGains []; P] = (s', [UB]).
Proof.
  assert (Ef : exists f, fader_new 1 4 = Ok f /\ f_block f = 1%nat) by (eexists; split; reflexivity).
  destruct Ef as (f & Ef & Hf).
  exists (Config 1 1 2 f), (State [0; 0] [1; 0] (direct 1) 0%nat None [] None). eexists.
  split; [unfold construct; rewrite Ef; reflexivity|].
  unfold P. cbn [perform step s_prev s_next s_routes s_ramp s_new_list s_points s_new_gains].
  unfold process, take_list, take_gains, take_points. cbn -[Q2Qc]. reflexivity.
Qed.
Print Assumptions C75_gain_size_refuted.

(** If no routing uses the gains, a vector of another size is taken over without notice, and the next
    one makes every later call fail. *)
Theorem C75_gain_size_stuck_refuted : exists c s, construct 1 1 1 4 2 [] = Ok (c, s)
  /\ forall n, snd (perform c s (NewGains [] :: P :: NewGains [1; 1] :: repeat P n))
                = Ok [[0]] :: repeat (Throw LogicError) n.
Proof.
  assert (Ef : exists f, fader_new 1 4 = Ok f /\ f_block f = 1%nat) by (eexists; split; reflexivity).
  destruct Ef as (f & Ef & Hf).
  exists (Config 1 1 2 f), (State [0; 0] [0; 0] [] 0%nat None [] None).
  split; [unfold construct; rewrite Ef; reflexivity|]. intros n.
  set (c := Config 1 1 2 f).
  assert (E1 : exists k, process c (State [0; 0] [0; 0] [] 0%nat None [] (Some [])) [[1]] = (State [0; 0] [] [] k None [] None, Ok [[0]])).
  { eexists. unfold process, take_list, take_gains, take_points, c. cbn -[Nat.min Q2Qc]. rewrite Hf. reflexivity. }
  destruct E1 as (k & E1).
  assert (X : forall m, perform c (State [0; 0] [] [] k None [] (Some [1; 1])) (repeat P m)
                        = (State [0; 0] [] [] k None [] (Some [1; 1]), repeat (Throw LogicError) m)).
  { induction m as [|m IH]; [reflexivity|]. cbn [repeat perform]. unfold P at 1. cbn [step].
    assert (Y : process c (State [0; 0] [] [] k None [] (Some [1; 1])) [[1]] = (State [0; 0] [] [] k None [] (Some [1; 1]), Throw LogicError))
      by reflexivity.
    rewrite Y, IH. reflexivity. }
  unfold P at 1. cbn [perform step s_prev s_next s_routes s_ramp s_new_list s_points s_new_gains]. rewrite E1.
  cbn [s_prev s_next s_routes s_ramp s_new_list s_points s_new_gains]. rewrite X. reflexivity.
Qed.
Print Assumptions C75_gain_size_stuck_refuted.

(** *** Refuted: a rejected list has no effect *)
(** All valid gains are 0, but after the rejected list, the next valid one starts from its gain. *)
Theorem C75_rejected_gains_refuted : exists bad, ~ Forall (valid 1 1 2) bad
  /\ path (direct 0) [P; NewList bad; P; NewList (direct 0); P] = [0; nq 3 / nq 4].
Proof.
  exists [MkS 0%nat 0%nat 0%nat 1; MkS 2%nat 0%nat 0%nat 1]. split.
  - intros H. apply Forall_cons_iff in H as [_ H]. apply Forall_cons_iff in H as [H _]. unfold valid in H. cbn in H. lia.
  - assert (X : forall l l' : list Qc, map this l = map this l' -> l = l').
    { induction l as [|a l IH]; intros [|b l'] H; try discriminate; [reflexivity|]. cbn in H. injection H as H1 H2.
      f_equal; [apply Qc_is_canon; rewrite H1; reflexivity|apply IH; exact H2]. }
    apply X. vm_compute. reflexivity.
Qed.
Print Assumptions C75_rejected_gains_refuted.

(** *** Examples *)
(** two inputs, two outputs, two entries, one of them shared by no other crosspoint; transition
    over 4 samples in blocks of 2 *)
Definition ex_list : list (srouting Qc) := [MkS 0%nat 0%nat 1%nat 1; MkS 2%nat 1%nat 1%nat (nq 2)].
Example C75_example : match construct 2 2 2 4 3 ex_list with
  | Ok (c, s) =>
      map (fun r => match r with Ok o => map (map this) o | _ => [] end)
        (snd (perform c s [Process [[0; 0]; [1; 1]]; Process [[0; 0]; [1; 1]]; Process [[0; 0]; [1; 1]];
                           NewGains [0; 0; nq 4]; Process [[1; 1]; [1; 1]]]))
      = map (map (map this))
        [ [[nq 1 / nq 4; nq 1 / nq 2]; [nq 1 / nq 2; nq 1]];
          [[nq 3 / nq 4; nq 1]; [nq 3 / nq 2; nq 2]];
          [[nq 1; nq 1]; [nq 2; nq 2]];
          [[nq 3 / nq 4; nq 1 / nq 2]; [nq 5 / nq 2; nq 3]] ]
      /\ is_list ex_list /\ Forall (valid 2 2 3) ex_list
  | _ => False
  end.
Proof.
  vm_compute. split; [reflexivity|]. split.
  - repeat constructor; cbn; intuition lia.
  - repeat constructor.
Qed.
Example C75_construct_example : construct 2 2 2 4 2 ex_list = Throw RuntimeError.
Proof. vm_compute. reflexivity. Qed.
Example C75_rejected_example : match construct 2 2 2 4 3 ex_list with
  | Ok (c, s) => snd (perform c s [NewList [MkS 0%nat 2%nat 0%nat 1]; Process [[0; 0]; [1; 1]]]) = [Throw RuntimeError]
  | _ => False
  end.
Proof. vm_compute. reflexivity. Qed.
