(** Property C76: the wrappers for Matlab, Max and Python. *)
From Coq Require Import ZArith.
From Verif Require Import Base Memory HostModel HostSpec HostProofs.

Section Mex.
  Context {A E F : Type} (to_internal : E -> A) (to_host : A -> E) (zero : E).
  Variables (exec : F -> list (list A) -> option (F * list (list A))) (ins outs period : nat).

  (** C76: the Matlab wrapper accepts exactly floating-point matrices with one row per capture channel
      and a length that is a multiple of the period, and creates an output matrix of zeros. *)
  Theorem C76_mex_construct : forall setup (input : mx (E := E)), 0 < period ->
    match mex_construct zero ins outs period setup input with
    | Ok out => mx_type input <> OtherClass /\ setup = true /\ mx_m input = ins /\ Nat.divide period (mx_n input)
                /\ mx_type out = mx_type input /\ mx_m out = outs /\ mx_n out = mx_n input /\ mx_ok out
                /\ forall r c, r < outs -> c < mx_n input -> element out r c = Some zero
    | Throw InvalidArgument => mx_type input = OtherClass \/ setup = false
    | Throw LogicError => mx_type input <> OtherClass /\ setup = true
                          /\ (mx_m input <> ins \/ ~ Nat.divide period (mx_n input))
    | _ => False
    end.
  Proof.
    intros setup [ty m n data] Hp. unfold mex_construct. cbn [mx_type mx_m mx_n mx_data].
    assert (D : Nat.divide period n <-> n mod period = 0) by (symmetry; apply Nat.mod_divide; lia).
    destruct ty; [| |left; reflexivity]; (destruct setup; cbn [negb]; [|right; reflexivity]);
      (destruct (Nat.eqb_spec m ins) as [M|M]; cbn [negb]; [|split; [discriminate|split; [reflexivity|left; exact M]]]);
      (destruct (Nat.eqb_spec period 0); [lia|]);
      (destruct (Nat.eqb_spec (n mod period) 0) as [N|N]; cbn [negb];
        [|split; [discriminate|split; [reflexivity|right; rewrite D; exact N]]]);
      (split; [discriminate|]); (split; [reflexivity|]); (split; [exact M|]); (split; [apply D; exact N|]);
      (split; [reflexivity|]); (split; [reflexivity|]); (split; [reflexivity|]);
      (split; [unfold mx_ok; cbn; apply repeat_length|]); intros r c Hr Hc; unfold element; cbn;
      apply nth_error_repeat; apply index_bound; assumption.
  Qed.

  Hypothesis flow : flow_ok exec ins outs period.

  (** C76: the transfer of the samples is right.  If success of the signal flow were reported by a
      status of 0 (as the wrapper expects), column t of the output would be what the flow
      computes for column t of the input, block by block. *)
  Theorem C76_mex_signal_if_status_zero : forall setup input out f f' ys,
    0 < period -> mx_ok input -> mex_construct zero ins outs period setup input = Ok out -> 0 < ins -> 0 < outs ->
    run_flow exec f (map (mx_block ins period to_internal zero input) (seq 0 (mx_n input / period))) = Some (f', ys) ->
    exists data, mex_process to_internal to_host ins outs period
        (fun f x => match exec f x with Some (f', y) => Ok (f', y, false) | None => Throw InvalidArgument end) input f out
      = (f', data, Ok tt)
      /\ forall ch t, ch < outs -> t < mx_n input ->
         element (Mx (mx_type out) outs (mx_n input) data) ch t
         = option_map to_host (nth_error (nth ch (nth (t / period) ys []) []) (t mod period)).
  Proof.
    intros setup input out f f' ys Hp Hm Hc Hi Ho Hr.
    pose proof (C76_mex_construct setup input Hp) as C. rewrite Hc in C.
    destruct C as (_ & _ & Em & [q Eq] & _ & E1 & E2 & E3 & _). unfold mx_ok in E3. rewrite E1, E2 in E3.
    assert (Q : mx_n input / period = q). { rewrite Eq. apply Nat.div_mul. lia. }
    destruct (mex_blocks_ok to_internal to_host zero exec ins outs period Hp flow input Hm Em Hi Ho (mx_n input / period) 0 f f' ys (mx_data out))
      as (data & Ed & _ & _ & N); [rewrite Q; lia|exact E3|exact Hr|].
    exists data. split; [exact Ed|]. intros ch t Hch Ht. unfold element. cbn [mx_data mx_m]. rewrite N by assumption.
    cbn [Nat.mul Nat.leb andb Nat.add]. rewrite (proj2 (Nat.ltb_lt t _)) by (rewrite Q, <- Eq; exact Ht).
    rewrite Nat.sub_0_r. reflexivity.
  Qed.

  (** C76, refuted for every flow: since AudioSignalFlow reports success by true, process() throws
      after the first block and the output matrix keeps its zeros. *)
  Theorem C76_mex_signal_refuted : forall setup input out f,
    0 < period -> mx_ok input -> mex_construct zero ins outs period setup input = Ok out -> 0 < ins -> 0 < outs -> 0 < mx_n input ->
    exists f' e, mex_process to_internal to_host ins outs period (asf_process exec) input f out = (f', mx_data out, Throw e)
      /\ (e = RuntimeError <-> exec f (mx_block ins period to_internal zero input 0) <> None).
  Proof.
    intros setup input out f Hp Hm Hc Hi Ho Hn.
    pose proof (C76_mex_construct setup input Hp) as C. rewrite Hc in C. destruct C as (_ & _ & Em & [q Eq] & _).
    assert (Q : mx_n input / period = q). { rewrite Eq. apply Nat.div_mul. lia. }
    unfold mex_process. rewrite Q. destruct q as [|q]; [cbn in Eq; lia|]. cbn [mex_blocks].
    rewrite (transfer_in_ok to_internal zero ins period Hp input 0 Hm Em) by nia.
    destruct (Nat.eqb_spec ins 0); [lia|]. destruct (Nat.eqb_spec outs 0); [lia|]. cbn [orb].
    unfold asf_process. destruct (exec f _) as [[f1 y]|].
    - exists f1, RuntimeError. split; [reflexivity|]. split; [discriminate|reflexivity].
    - exists f, InvalidArgument. split; [reflexivity|]. split; [discriminate|]. intros X. now destruct X.
  Qed.

  (** C76, refuted: a flow without inputs or without outputs can be run. *)
  Theorem C76_mex_no_channels_refuted : forall setup input out (run : F -> list (list A) -> res (F * list (list A) * bool)) f,
    0 < period -> mx_ok input -> mex_construct zero ins outs period setup input = Ok out -> ins = 0 \/ outs = 0 -> 0 < mx_n input ->
    snd (mex_process to_internal to_host ins outs period run input f out) = UB.
  Proof.
    intros setup input out run f Hp Hm Hc Hz Hn.
    pose proof (C76_mex_construct setup input Hp) as C. rewrite Hc in C. destruct C as (_ & _ & Em & [q Eq] & _).
    assert (Q : mx_n input / period = q). { rewrite Eq. apply Nat.div_mul. lia. }
    unfold mex_process. rewrite Q. destruct q as [|q]; [cbn in Eq; lia|]. cbn [mex_blocks].
    rewrite (transfer_in_ok to_internal zero ins period Hp input 0 Hm Em) by nia.
    assert ((ins =? 0) || (outs =? 0) = true) as ->; [|reflexivity].
    apply orb_true_iff. rewrite !Nat.eqb_eq. exact Hz.
  Qed.

  (** C76: with buffers of sufficient size, the Max wrapper passes the first [period] samples of the
      first channels through the flow, and writes nothing else. *)
  Theorem C76_max_block : forall f (inBufs outBufs : list (list E)),
    ins <= length inBufs -> outs <= length outBufs ->
    Forall (fun b => period <= length b) inBufs -> Forall (fun b => period <= length b) outBufs ->
    process_block to_internal to_host exec ins period f inBufs outBufs
    = match exec f (map (fun b => map to_internal (firstn period b)) (firstn ins inBufs)) with
      | Some (f', y) => (f', map (fun p => map to_host (fst p) ++ skipn period (snd p)) (combine y outBufs) ++ skipn outs outBufs, Returned)
      | None => (f, outBufs, ThrowsString)
      end.
  Proof.
    intros f inBufs outBufs H1 H2 H3 H4. unfold process_block. rewrite (max_in_ok to_internal ins period inBufs H1 H3).
    unfold asf_process. destruct (exec f _) as [[f' y]|] eqn:Ex; [|reflexivity].
    apply flow in Ex.
    - destruct Ex as [Y1 Y2]. rewrite (max_out_ok to_host period y Y2 outBufs) by (lia || assumption). rewrite Y1. reflexivity.
    - split; [rewrite map_length, firstn_length; lia|]. apply Forall_forall. intros c Hc. apply in_map_iff in Hc as (b & <- & Hb).
      rewrite map_length, firstn_length. apply firstn_In in Hb || (rewrite <- (firstn_skipn ins inBufs) in H3; apply Forall_app in H3 as [H3 _]).
      rewrite Forall_forall in H3. specialize (H3 b Hb). lia.
  Qed.

  (** C76: perform() reports a message for each number that differs from the flow. *)
  Theorem C76_max_messages : forall f numins numouts frames (inBufs outBufs : list (list E)),
    fst (perform to_internal to_host exec ins outs period f numins numouts frames inBufs outBufs)
    = length (filter (fun p => negb (fst p =? snd p)) [(numins, ins); (numouts, outs); (frames, period)]).
  Proof.
    intros f numins numouts frames inBufs outBufs. unfold perform. cbn [fst snd filter].
    destruct (numins =? ins), (numouts =? outs), (frames =? period); reflexivity.
  Qed.
End Mex.
Print Assumptions C76_mex_construct.
Print Assumptions C76_mex_signal_if_status_zero.
Print Assumptions C76_mex_signal_refuted.
Print Assumptions C76_mex_no_channels_refuted.
Print Assumptions C76_max_block.
Print Assumptions C76_max_messages.

(** *** Python *)
Section Python.
  Context {A F : Type} (load : Z -> A).
  Variables (exec : F -> list (list A) -> option (F * list (list A))) (ins outs period : nat).
  Hypothesis flow : flow_ok exec ins outs period.
  Definition well_shaped (a : ndarray) : Prop := nd_float a = true /\ nd_shape a = [ins; period].

  (** C76: the Python binding reads every element of the array at its address (for all strides that
      are multiples of the sample size, positive or not), and returns the output channels row by
      row; everything else is rejected. *)
  Theorem C76_python : forall f a,
    (sample_size | nth 0 (nd_strides a) 0)%Z -> (sample_size | nth 1 (nd_strides a) 0)%Z ->
    (well_shaped a ->
       wrap_process exec ins outs period load f a
       = match exec f (nd_block ins period load a) with
         | Some (f', y) => Ok (f', map Some (concat y))
         | None => Throw InvalidArgument
         end)
    /\ (~ well_shaped a -> wrap_process exec ins outs period load f a = Throw InvalidArgument).
  Proof.
    intros f a D0 D1. unfold wrap_process, well_shaped. split.
    - intros [Hf Hs]. rewrite Hf, Hs. cbn [length nth negb Nat.eqb]. rewrite !Nat.eqb_refl. cbn [negb].
      unfold asf_process_strided.
      assert (B : map (fun ch => copy_strided load (advance (nd_base a)
              ((Z.of_nat ch * stride_elements (nth 0 (nd_strides a) 0)) mod word)%Z)
              (stride_elements (nth 1 (nd_strides a) 0%Z)) period) (seq 0 ins) = nd_block ins period load a).
      { unfold nd_block. apply map_ext. intros ch. rewrite advance_scaled by exact D0. rewrite copy_strided_ok by exact D1. reflexivity. }
      rewrite B. destruct (exec f _) as [[f' y]|] eqn:Ex; [|reflexivity].
      apply flow in Ex.
      + destruct Ex as [Y1 Y2].
        destruct (copy_out_ok period y 0 (repeat None (outs * period)) Y2) as (o & -> & ->); [rewrite repeat_length, Y1; reflexivity|].
        reflexivity.
      + unfold nd_block. split; [rewrite map_length, seq_length; reflexivity|]. apply Forall_forall. intros c Hc.
        apply in_map_iff in Hc as (ch & <- & _). rewrite map_length, seq_length. reflexivity.
    - intros H. destruct (nd_float a); cbn [negb]; [|reflexivity].
      destruct (nd_shape a) as [|n0 [|n1 [|n2 sh]]]; try reflexivity. cbn [length nth Nat.eqb negb].
      destruct (Nat.eqb_spec n0 ins) as [->|]; cbn [negb]; [|reflexivity].
      destruct (Nat.eqb_spec n1 period) as [->|]; cbn [negb]; [|reflexivity]. destruct H. split; reflexivity.
  Qed.
End Python.
Print Assumptions C76_python.

(** C76, refuted: strides that are not multiples of the sample size (such as of a field of a packed
    record array) are rejected or respected.  One channel, two samples, a stride of 6 bytes: the second
    sample is taken from byte 4. *)
Definition copy_flow (f : unit) (x : list (list Z)) : option (unit * list (list Z)) := Some (tt, x).
Theorem C76_python_stride_refuted : exists (load : Z -> Z) a,
  well_shaped 1 2 a
  /\ wrap_process copy_flow 1 1 2 load tt a = Ok (tt, [Some 0; Some 4]%Z)
  /\ nd_block 1 2 load a = [[0; 6]]%Z.
Proof.
  exists (fun p => p), (Nd true 0%Z [1; 2] [12; 6]%Z). split; [split; reflexivity|]. split; vm_compute; reflexivity.
Qed.
Print Assumptions C76_python_stride_refuted.

(** C76, refuted: perform() handles errors of the signal flow: the string that processBlock() throws is
    not a std::exception and leaves perform(). *)
Theorem C76_max_exception_refuted : forall (E A : Type) (ti : E -> A) (th : A -> E) ins outs period inBufs outBufs,
  ins <= length inBufs -> Forall (fun b => period <= length b) inBufs ->
  perform ti th (fun (f : unit) _ => None) ins outs period tt ins outs period inBufs outBufs = (0, (tt, outBufs, ThrowsString)).
Proof.
  intros E A ti th ins outs period inBufs outBufs H1 H2. unfold perform, process_block.
  rewrite (max_in_ok ti ins period inBufs H1 H2), !Nat.eqb_refl. reflexivity.
Qed.
Print Assumptions C76_max_exception_refuted.

(** C76, refuted: a block length that differs from the period is reported and not processed: the
    message is printed, but the buffers are accessed beyond their end. *)
Theorem C76_max_length_refuted : forall period, exists frames inBufs outBufs,
  frames <= period /\ Forall (fun b => length b = frames) inBufs /\ Forall (fun b => length b = frames) outBufs
  /\ perform (E := nat) (fun x => x) (fun x => x) (fun (f : unit) x => Some (f, x)) 1 1 (S period) tt 1 1 frames inBufs outBufs
     = (1, (tt, outBufs, Undefined)).
Proof.
  intros period. exists period, [repeat 0 period], [repeat 0 period]. split; [lia|].
  split; [repeat constructor; apply repeat_length|]. split; [repeat constructor; apply repeat_length|].
  unfold perform. rewrite Nat.eqb_refl. cbn [Nat.eqb Nat.add].
  destruct (Nat.eqb_spec period (S period)); [lia|]. f_equal. unfold process_block, max_in. cbn [seq map_res nth_error].
  assert (X : forall n (b : list nat) off, length b < off + n -> 0 < n -> read_strided b off 1 n = UB).
  { clear. induction n as [|n IH]; intros b off L P; [lia|]. cbn [read_strided]. destruct (nth_error b off) eqn:Q; [|reflexivity].
    assert (off < length b) by (apply nth_error_Some; congruence).
    rewrite IH; [reflexivity|lia|lia]. }
  rewrite X; [reflexivity|rewrite repeat_length; lia|lia].
Qed.
Print Assumptions C76_max_length_refuted.

(** *** Examples: a flow with one input and two outputs that sums up what it has received *)
Definition sum_flow (f : nat) (x : list (list nat)) : option (nat * list (list nat)) :=
  match x with
  | [[a; b]] => Some (f + a + b, [[f + a; f + a + b]; [a; b]])
  | _ => None
  end.
Example sum_flow_ok : flow_ok sum_flow 1 2 2.
Proof.
  intros f x f' y [L H] Ex. destruct x as [|c [|]]; try discriminate. apply Forall_cons_iff in H as [H _].
  destruct c as [|a [|b [|]]]; try discriminate. injection Ex as <- <-. split; [reflexivity|]. repeat constructor.
Qed.
Definition ex_in : mx := Mx Double 1 4 [1; 2; 3; 4].
Example C76_mex_example :
  mex_construct 0 1 2 2 true ex_in = Ok (Mx Double 2 4 (repeat 0 8))
  /\ mx_ok ex_in
  /\ run_flow sum_flow 0 (map (mx_block 1 2 (fun x => x) 0 ex_in) (seq 0 2)) = Some (10, [[[1; 3]; [1; 2]]; [[6; 10]; [3; 4]]])
  /\ mex_process (fun x => x) (fun x => x) 1 2 2
       (fun f x => match sum_flow f x with Some (f', y) => Ok (f', y, false) | None => Throw InvalidArgument end)
       ex_in 0 (Mx Double 2 4 (repeat 0 8)) = (10, [1; 1; 3; 2; 6; 3; 10; 4], Ok tt)
  /\ mex_process (fun x => x) (fun x => x) 1 2 2 (asf_process sum_flow) ex_in 0 (Mx Double 2 4 (repeat 0 8))
     = (3, repeat 0 8, Throw RuntimeError).
Proof. repeat split. Qed.
Example C76_max_example :
  process_block (fun x => x) (fun x => x) sum_flow 1 2 5 [[1; 2]] [[0; 0; 7]; [0; 0]; [9; 9]]
  = (8, [[6; 8; 7]; [1; 2]; [9; 9]], Returned).
Proof. reflexivity. Qed.
(** a reversed view: negative stride *)
Example C76_python_example :
  wrap_process sum_flow 1 2 2 (fun p => Z.to_nat (p / 4)) 0 (Nd true 8%Z [1; 2] [8; -4]%Z) = Ok (3, [Some 2; Some 3; Some 2; Some 1])
  /\ well_shaped 1 2 (Nd true 8%Z [1; 2] [8; -4]%Z).
Proof. split; [vm_compute; reflexivity|split; reflexivity]. Qed.
