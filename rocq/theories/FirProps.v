(** Property C77: the multichannel FIR filter. *)
From Coq Require Import ZArith.
From Verif Require Import Base Memory FirModel FirSpec FirProofs.

Section Props.
  Context {R : Type} (add mul : R -> R -> R) (zero one minus_one : R) (block blocks filters : nat).
  Hypothesis block_pos : 0 < block.
  Local Notation perform' := (perform add mul zero one minus_one block blocks filters).
  Local Notation spec_perform' := (spec_perform add mul zero one minus_one block blocks).
  Local Notation new := (fir_new zero block blocks).
  Local Notation snew := (spec_new zero).
  Local Notation admissible' := (admissible add mul zero one minus_one block blocks filters).

  (** C77: for every sequence of calls with valid arguments, all results are those of the specification;
      nothing is accessed outside the buffers. *)
  Theorem C77_refines : forall ops, admissible' snew ops ->
    snd (perform' new ops) = snd (spec_perform' snew ops).
  Proof. intros ops H. apply perform_ok; [exact block_pos|apply related_new; exact block_pos|exact H]. Qed.

  Lemma represented_id (t d : Z) (i : nat) : (t = Z.of_nat i -> (i < block)%nat -> 0 <= d <= Z.of_nat (block * blocks) ->
    forall h, represented block blocks (h + Z.of_nat block - 1) (h + t - d) = h + t - d)%Z.
  Proof.
    intros Ht Hi Hd h. unfold represented. rewrite Z.mod_small by lia. lia.
  Qed.

  (** C77: if the response, upsampled, is not longer than the maximum plus one, each output is the
      convolution of the whole input so far with the coefficients of the filter. *)
  Theorem C77_convolution : forall ops x, admissible' snew ops -> length x = block ->
    let s := fst (perform' new ops) in
    let p := fst (spec_perform' snew ops) in
    (Z.of_nat (p_length p) * p_ratio p <= Z.of_nat (block * blocks) + p_ratio p)%Z ->
    exists s' y, process add mul zero block blocks s x = (s', Ok y)
      /\ length y = block
      /\ forall i, i < block -> exists yi, nth_error y i = Some yi /\ length yi = p_filters p
           /\ forall k, k < p_filters p ->
              nth_error yi k = Some (weighted add mul zero (p_coeff p k)
                (fun j => signal zero (p_history p ++ x) (Z.of_nat (length (p_history p) + i) - Z.of_nat j * p_ratio p))
                (p_length p)).
  Proof.
    intros ops x Ha Hx s p Hl.
    destruct (perform_ok add mul zero one minus_one block blocks filters block_pos ops new snew (related_new zero block blocks block_pos) Ha) as [_ R0].
    fold s p in R0. pose proof (process_ok add mul zero block blocks block_pos s p x R0 Hx) as X.
    destruct (process add mul zero block blocks s x) as [s' r]. destruct X as [-> _].
    eexists s', _. split; [reflexivity|]. split; [rewrite map_length, seq_length; reflexivity|].
    intros i Hi. eexists. split.
    - rewrite (nth_error_nth_lt _ i []) by (rewrite map_length, seq_length; exact Hi). rewrite map_seq_nth by exact Hi. reflexivity.
    - split; [rewrite map_length, seq_length; reflexivity|]. intros k Hk.
      rewrite (nth_error_nth_lt _ k zero) by (rewrite map_length, seq_length; exact Hk). rewrite map_seq_nth by exact Hk.
      f_equal. unfold spec_sample, weighted. apply fold_left_in. intros a j Hj. apply in_seq in Hj.
      do 3 f_equal. rewrite app_length, Hx.
      pose proof (r_ratio_ok zero block blocks s p R0) as Hu.
      rewrite !Nat2Z.inj_add. apply (represented_id (Z.of_nat i) (Z.of_nat j * p_ratio p) i); [reflexivity|exact Hi|nia].
  Qed.

  (** C77: this is guaranteed once setUpsampleRatio() has accepted a positive ratio, as long as the
      length and the ratio are not changed. *)
  Definition keeps_length (o : op (R := R)) : bool :=
    match o with SetSamples _ | SetRatio _ => false | _ => true end.
  Theorem C77_ratio_guard : forall ops u ops', admissible' snew (ops ++ SetRatio u :: ops') -> (1 <= u)%Z ->
    forallb keeps_length ops' = true ->
    snd (step add mul zero one minus_one block blocks filters (fst (perform' new ops)) (SetRatio u)) = Ok (Code 0) ->
    let p := fst (spec_perform' snew (ops ++ SetRatio u :: ops')) in
    (p_ratio p = u /\ Z.of_nat (p_length p) * u <= Z.of_nat (block * blocks))%Z.
  Proof.
    intros ops u ops' Ha Hu Hk Hc p.
    assert (A1 : admissible' snew ops /\ admissible' (fst (spec_perform' snew ops)) (SetRatio u :: ops')).
    { clear -Ha. revert Ha. generalize snew. induction ops as [|o ops IH]; intros p0 H; [split; [exact I|exact H]|].
      destruct H as [Ho H]. cbn [admissible]. destruct (IH _ H) as [H1 H2]. split; [split; assumption|].
      cbn [spec_perform]. destruct (spec_step add mul zero one minus_one block blocks p0 o) as [p1 r]. cbn [fst] in H2.
      destruct (spec_perform' p1 ops). exact H2. }
    destruct A1 as [A1 [A2 A3]].
    destruct (perform_ok add mul zero one minus_one block blocks filters block_pos ops new snew (related_new zero block blocks block_pos) A1) as [_ R0].
    pose proof (step_ok add mul zero one minus_one block blocks filters block_pos _ _ _ R0 A2) as X.
    destruct (step add mul zero one minus_one block blocks filters (fst (perform' new ops)) (SetRatio u)) as [s1 r].
    cbn [snd] in Hc. subst r.
    assert (Ep : p = fst (spec_perform' (fst (spec_perform' snew ops)) (SetRatio u :: ops'))).
    { unfold p. clear. generalize snew. induction ops as [|o ops IH]; intros p0; [reflexivity|]. cbn [app spec_perform].
      destruct (spec_step add mul zero one minus_one block blocks p0 o) as [p1 r]. specialize (IH p1). cbn [spec_perform] in IH.
      destruct (spec_perform' p1 ops) as [p2 rs2], (spec_perform' p1 (ops ++ SetRatio u :: ops')) as [p3 rs3]. exact IH. }
    clearbody p. cbn [spec_perform] in Ep.
    destruct (spec_step add mul zero one minus_one block blocks (fst (spec_perform' snew ops)) (SetRatio u)) as [p1 r1] eqn:E1.
    destruct X as [X _]. cbn [spec_step] in E1.
    destruct (Z.leb_spec (u * Z.of_nat (p_length (fst (spec_perform' snew ops)))) (Z.of_nat (block * blocks))) as [L|L];
      [|injection E1 as <- <-; discriminate]. injection E1 as <- <-.
    assert (K : forall ops' p0, forallb keeps_length ops' = true ->
              p_ratio (fst (spec_perform' p0 ops')) = p_ratio p0 /\ p_length (fst (spec_perform' p0 ops')) = p_length p0).
    { clear. induction ops' as [|o ops' IH]; intros p0 H; [split; reflexivity|]. apply andb_true_iff in H as [Ho H]. cbn [spec_perform].
      destruct (spec_step add mul zero one minus_one block blocks p0 o) as [p1 r] eqn:E. specialize (IH p1 H).
      destruct (spec_perform' p1 ops') as [p2 rs]. cbn [fst] in *. destruct IH as [-> ->].
      destruct o; cbn [spec_step] in E; try discriminate Ho; try (injection E as <- <-; split; reflexivity).
      destruct (_ && _) in E; injection E as <- <-; split; reflexivity. }
    specialize (K ops' (Spec (p_filters (fst (spec_perform' snew ops))) (p_length (fst (spec_perform' snew ops)))
                             (p_coeff (fst (spec_perform' snew ops))) u (p_history (fst (spec_perform' snew ops)))) Hk).
    destruct (spec_perform' _ ops') as [p2 rs]. cbn [fst p_ratio p_length] in *. subst p. destruct K as [-> ->].
    split; [reflexivity|lia].
  Qed.

  (** C77: tristate filters have the drawn coefficients, and their index lists are the positions of the
      coefficients 1 and -1 in ascending order. *)
  Theorem C77_tristate : forall s draw, m_nFIRs s <= filters -> m_nFIRsamples s <= block * blocks ->
    exists s', tristate zero one minus_one block blocks filters s draw = (s', Ok tt)
      /\ m_inBuffer s' = m_inBuffer s /\ m_iBuf s' = m_iBuf s /\ m_nUpsample s' = m_nUpsample s
      /\ forall i j, i < m_nFIRs s -> j < m_nFIRsamples s ->
         nth_error (nth i (m_B s') []) j = Some (level zero one minus_one (draw i j))
         /\ (In j (nth i (m_iBplus s') []) <-> draw i j = Some true)
         /\ (In j (nth i (m_iBminus s') []) <-> draw i j = Some false).
  Proof.
    intros s draw H1 H2. eexists. split; [apply tristate_ok; assumption|]. cbn [m_inBuffer m_iBuf m_nUpsample m_B m_iBplus m_iBminus].
    split; [reflexivity|]. split; [reflexivity|]. split; [reflexivity|]. intros i j Hi Hj. rewrite !map_seq_nth by exact Hi.
    split; [|split].
    - rewrite (nth_error_nth_lt _ j zero) by (rewrite map_length, seq_length; exact Hj). rewrite map_seq_nth by exact Hj. reflexivity.
    - rewrite filter_In, in_seq. split.
      + intros [_ X]. destruct (draw i j) as [[|]|]; (discriminate || reflexivity).
      + intros ->. split; [lia|reflexivity].
    - rewrite filter_In, in_seq. split.
      + intros [_ X]. destruct (draw i j) as [[|]|]; (discriminate || reflexivity).
      + intros ->. split; [lia|reflexivity].
  Qed.

  (** C77, refuted: the number of filters is limited to what the index lists hold. *)
  Theorem C77_tristate_size_refuted : forall draw,
    snd (tristate zero one minus_one block blocks filters (setNumFIRs zero new (S filters)) draw) = UB.
  Proof. intros draw. unfold tristate. cbn [setNumFIRs m_nFIRs]. rewrite (proj2 (Nat.ltb_lt filters (S filters))) by lia. reflexivity. Qed.

  (** C77, refuted: every accepted ratio keeps the accesses inside the buffer.  If the ratio is set before
      the length, any value is accepted. *)
  Theorem C77_order_refuted : exists u, forall x, length x = block ->
    snd (perform' new [SetRatio u; SetNum 1; SetSamples 2; Process x]) = [Ok (Code 0); Ok Nothing; Ok Nothing; UB].
  Proof.
    exists (Z.of_nat (block * (blocks + 1)) + 1)%Z. intros x Hx. cbn [perform step].
    assert (E : setUpsampleRatio block blocks new (Z.of_nat (block * (blocks + 1)) + 1)
                = (Fir 0 0 [] (Z.of_nat (block * (blocks + 1)) + 1) [] [] (repeat zero (nBufferSamples block blocks)) 0, Ok 0%Z)).
    { unfold setUpsampleRatio. cbn [m_nFIRsamples fir_new]. rewrite Z.mul_0_r. cbn [Z.ltb Z.leb orb Z.opp Z.pow].
      destruct (Z.ltb_spec (Z.of_nat (maxnFIRsamples block blocks)) 0); [lia|]. reflexivity. }
    rewrite E. unfold setNumFIRs, setNumFIRsamples. cbn [ret bind m_nFIRs m_nFIRsamples m_nUpsample m_iBplus m_iBminus m_inBuffer m_iBuf].
    unfold process. rewrite Hx, Nat.eqb_refl. cbn [negb m_inBuffer m_iBuf m_nFIRsamples m_nFIRs].
    assert (HN : 0 < nBufferSamples block blocks) by (unfold nBufferSamples; nia).
    destruct (set_input_ok zero block block_pos x (repeat zero (nBufferSamples block blocks)) 0) as (buf & -> & Lb & _).
    { rewrite repeat_length. unfold nBufferSamples. nia. }
    rewrite repeat_length in Lb. cbn [bind].
    destruct block as [|b] eqn:Eb; [lia|]. cbn [seq map_res Nat.add Z.of_nat taps m_nFIRs m_B m_nUpsample repeat elem nth_error bind].
    unfold elem_z at 1, elem. cbn [Z.ltb Z.compare Z.to_nat]. destruct buf as [|b0 buf]; [cbn in Lb; lia|]. cbn [nth_error bind zeros repeat].
    match goal with |- context [elem_z _ ?z] => assert (Ez : z = (-1)%Z) end.
    { unfold nBufferSamples. destruct (Z.ltb_spec (0 - (Z.of_nat (S b * (blocks + 1)) + 1)) 0); lia. }
    rewrite Ez. reflexivity.
  Qed.
End Props.
Print Assumptions C77_refines.
Print Assumptions C77_convolution.
Print Assumptions C77_ratio_guard.
Print Assumptions C77_tristate.
Print Assumptions C77_tristate_size_refuted.
Print Assumptions C77_order_refuted.

(** C77, refuted: the length is limited as the ratio is (for all constants of the class).  A filter of two
    coefficients more than the maximum is accepted; its last coefficient is applied to the last sample of
    the current block, which lies in the future. *)
Theorem C77_length_refuted : forall block blocks filters, 0 < block ->
  exists rows, Forall (fun r : list Z => length r = block * blocks + 2) rows /\
  forall x, length x = block ->
  exists y, snd (perform Z.add Z.mul 0%Z 1%Z (-1)%Z block blocks filters (fir_new 0%Z block blocks)
                   [SetNum 1; SetSamples (block * blocks + 2); Load (block * blocks + 2) rows; Process x])
            = [Ok Nothing; Ok Nothing; Ok Nothing; Ok (Signal y)]
    /\ nth 0 (nth 0 y []) 0%Z = nth (block - 1) x 0%Z.
Proof.
  intros block blocks filters Hb. set (m := block * blocks + 1).
  replace (block * blocks + 2) with (m + 1) by (unfold m; lia).
  set (row := repeat 0%Z m ++ [1%Z]).
  assert (Lr : length row = m + 1) by (unfold row; rewrite app_length, repeat_length; reflexivity).
  exists [row]. split; [constructor; [exact Lr|constructor]|]. intros x Hx.
  eexists. split.
  - rewrite (C77_refines Z.add Z.mul 0%Z 1%Z (-1)%Z block blocks filters Hb).
    + cbn [spec_perform spec_step p_filters p_length length Nat.eqb]. rewrite Nat.eqb_refl. cbn [andb snd]. reflexivity.
    + cbn [admissible spec_step op_ok fst]. repeat split.
      * constructor; [exact Lr|constructor].
      * exact Hx.
  - cbn [p_filters p_length p_coeff p_ratio p_history app spec_new nth].
    rewrite map_seq_nth by exact Hb. rewrite map_seq_nth by lia. unfold spec_sample. cbn [p_coeff p_ratio p_length nth].
    unfold weighted. rewrite seq_app, fold_left_app.
    match goal with |- fold_left ?f _ _ = _ => rewrite (fold_left_in f (fun a (_ : nat) => a) (seq 0 m)) end.
    + assert (F : forall l (a : Z), fold_left (fun a (_ : nat) => a) l a = a) by (induction l; [reflexivity|assumption]).
      rewrite F. cbn [seq fold_left Nat.add]. unfold row. rewrite app_nth2 by (rewrite repeat_length; lia). rewrite repeat_length.
      rewrite Nat.sub_diag. cbn [nth length Nat.add Z.of_nat]. rewrite Hx.
      assert (E : represented block blocks (Z.of_nat block - 1) (0 - Z.of_nat m * 1) = (Z.of_nat block - 1)%Z).
      { unfold represented. rewrite (mod_is _ _ 1 0) by (unfold m; lia). lia. }
      rewrite E. unfold signal. destruct (Z.ltb_spec (Z.of_nat block - 1) 0); [lia|].
      replace (Z.to_nat (Z.of_nat block - 1)) with (block - 1) by lia. lia.
    + intros a j Hj. apply in_seq in Hj. unfold row. rewrite app_nth1 by (rewrite repeat_length; lia). rewrite nth_repeat. lia.
Qed.
Print Assumptions C77_length_refuted.

(** The actual constants of the class, with integer samples. *)
Local Notation firs := (perform Z.add Z.mul 0%Z 1%Z (-1)%Z 64 32 64 (fir_new 0%Z 64 32)).

(** C77, refuted: negative ratios are rejected. *)
Theorem C77_negative_refuted : exists u x, length x = 64 /\
  snd (firs [SetNum 1; SetSamples 2; SetRatio u; Process x]) = [Ok Nothing; Ok Nothing; Ok (Code 0); UB].
Proof. exists (-2112)%Z, (repeat 0%Z 64). split; vm_compute; reflexivity. Qed.
Print Assumptions C77_negative_refuted.

(** *** Examples: blocks of 2, at most 4 coefficients *)
Definition ex_ops : list (op (R := Z)) :=
  [SetNum 2; SetSamples 2; SetRatio 2; Load 2 [[1; 10]; [100; 0]]%Z; Process [1; 2]%Z; Process [3; 4]%Z].
Example C77_example_admissible : admissible Z.add Z.mul 0%Z 1%Z (-1)%Z 2 2 4 (spec_new 0%Z) ex_ops.
Proof. cbn. repeat split; try lia. repeat constructor. Qed.
Example C77_example :
  snd (perform Z.add Z.mul 0%Z 1%Z (-1)%Z 2 2 4 (fir_new 0%Z 2 2) ex_ops)
  = [Ok Nothing; Ok Nothing; Ok (Code 0); Ok Nothing; Ok (Signal [[1; 100]; [2; 200]]%Z); Ok (Signal [[13; 300]; [24; 400]]%Z)]
  /\ (Z.of_nat 2 * 2 <= Z.of_nat (2 * 2) + 2)%Z.
Proof. split; [vm_compute; reflexivity|cbn; lia]. Qed.
Example C77_example_reject :
  snd (perform Z.add Z.mul 0%Z 1%Z (-1)%Z 2 2 4 (fir_new 0%Z 2 2) [SetNum 1; SetSamples 3; SetRatio 2; Load 2 [[1; 1]]%Z])
  = [Ok Nothing; Ok Nothing; Ok (Code (-1)); Throw InvalidArgument].
Proof. vm_compute. reflexivity. Qed.
Example C77_example_tristate :
  let draw := fun i j => if j =? i then Some true else if j =? 2 then Some false else None in
  let s := fst (tristate 0%Z 1%Z (-1)%Z 2 2 4 (fst (perform Z.add Z.mul 0%Z 1%Z (-1)%Z 2 2 4 (fir_new 0%Z 2 2) [SetNum 2; SetSamples 3])) draw) in
  m_B s = [[1; 0; -1]; [0; 1; -1]]%Z /\ m_iBplus s = [[0]; [1]] /\ m_iBminus s = [[2]; [2]].
Proof. vm_compute. repeat split. Qed.
