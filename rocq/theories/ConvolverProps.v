(** Properties C23 (partitioned convolution), C24 (multichannel convolution) and C25
    (routing table). *)
From Verif Require Import Base Memory CircularBufferModel CircularBufferProofs RingSum ConvolverModel
  ConvolverProofs RoutingProofs MultiConvolverProofs Dft RealDft.
From Verif Require F5.
From Coq Require Import Ring Reals Permutation.
Local Close Scope R_scope.
Local Open Scope nat_scope.
Local Open Scope res_scope.

(** ** C23 *)
Section Stream.
  Context {T : Type} (rO rI : T) (radd rmul rsub : T -> T -> T) (ropp : T -> T).
  Variable RT : ring_theory rO rI radd rmul rsub ropp (@eq T).
  Add Ring TRing5 : RT.
  Local Notation conv := (conv rO radd rmul).
  Context {K : Type} (kzero : K) (kadd kmul : K -> K -> K) (inj : T -> K)
          (fwd : list T -> list K) (inv : list K -> list T) (dsize : nat -> nat).
  Local Notation core := (core T K).

  (** Feed a stream of blocks through the convolver: per block processInputs(),
      processFilter() for one input channel and one filter, transformOutput(). *)
  Fixpoint stream (c : core) (input filter : nat) (gain : T) (blocks : list (list (list T))) : res (list T) :=
    match blocks with
    | [] => Ok []
    | x :: rest =>
        c' <- process_inputs fwd c x ;;
        r <- process_filter kadd kmul inj c' input filter gain [] false ;;
        more <- stream c' input filter gain rest ;;
        Ok (transform_output inv c' r ++ more)
    end.
  Definition channel (ch : nat) (blocks : list (list (list T))) : list T :=
    concat (map (fun x => nth ch x []) blocks).
  Definition blocks_ok (inputs b : nat) (blocks : list (list (list T))) : Prop :=
    Forall (fun x => length x = inputs /\ Forall (fun y => length y = b) x) blocks.

  Lemma conv_causal h xs ys n : n < length xs -> conv h (xs ++ ys) n = conv h xs n.
  Proof.
    intros H. unfold ConvolverProofs.conv. apply (sum_ext rO radd). intros k _.
    destruct (k <=? n); [|reflexivity]. now rewrite app_nth1 by lia.
  Qed.
  Lemma channel_length inputs b ch blocks : ch < inputs -> blocks_ok inputs b blocks ->
    length (channel ch blocks) = length blocks * b.
  Proof.
    intros Hc. induction 1 as [|x l [Lx Fx] _ IH]; [reflexivity|]. unfold channel in *. simpl.
    rewrite app_length, IH. rewrite Forall_forall in Fx. rewrite (Fx (nth ch x [])) by (apply nth_In; lia). reflexivity.
  Qed.

  Lemma stream_ok b cst c entries F input f gain blocks :
    transform_ok rO radd rmul kzero kadd kmul inj fwd inv dsize b cst ->
    c_block c = b -> input < c_inputs c -> f < entries -> blocks_ok (c_inputs c) b blocks ->
    forall H, core_inv rO radd rmul kmul fwd inv dsize c entries H F ->
    stream c input f gain blocks
    = Ok (map (fun n => rmul gain (conv (F f) (H input ++ channel input blocks) (length (H input) + n)))
              (seq 0 (length blocks * b))).
  Proof.
    intros TO Eb Hi Hf W. revert c Eb Hi W.
    induction blocks as [|x rest IH]; intros c Eb Hi W H V; [reflexivity|].
    apply Forall_cons_iff in W as [[Lx Fx] W]. cbn [stream].
    destruct (process_inputs_ok rO radd rmul kmul fwd inv dsize b c entries H F x V Eb Lx Fx)
      as (c' & E & V' & Eb' & Ei & _). rewrite E. cbn [bind].
    assert (Lc : length (nth input x []) = b).
    { rewrite Forall_forall in Fx. apply Fx, nth_In. lia. }
    assert (LH : length (appended b H x input) = length (H input) + b).
    { unfold appended. rewrite app_length, firstn_length. lia. }
    destruct (process_filter_ok rO rI radd rmul rsub ropp RT kzero kadd kmul inj fwd inv dsize b cst TO
                c' entries (appended b H x) F input f gain [] false V' Eb') as (r & Er & _ & Tr);
      [lia|exact Hf|lia|discriminate|].
    rewrite Er. cbn [bind].
    rewrite (IH c' Eb') with (H := appended b H x); [|lia|now rewrite Ei|exact V'].
    cbn [bind]. f_equal. rewrite Tr. cbn [length Nat.mul].
    rewrite seq_app, map_app. f_equal.
    - unfold conv_block. rewrite LH. apply (list_ext rO).
      + rewrite map2_length, repeat_length, map_length, seq_length; [reflexivity|].
        now rewrite repeat_length, !map_length, seq_length.
      + intros k Hk. rewrite map2_length, repeat_length in Hk by (now rewrite repeat_length, !map_length, seq_length).
        rewrite (map2_nth radd rO rO) by (rewrite repeat_length, ?map_length, ?seq_length; auto).
        rewrite nth_repeat, (map_nth' (rmul gain) rO) by (now rewrite map_length, seq_length).
        rewrite !map_seq_nth by exact Hk.
        assert (Q : conv (F f) (H input ++ channel input (x :: rest)) (length (H input) + k)
                    = conv (F f) (appended b H x input) (length (H input) + b - b + k)).
        { replace (length (H input) + b - b + k) with (length (H input) + k) by lia.
          unfold channel. cbn [map concat]. rewrite app_assoc.
          unfold appended. rewrite firstn_all2 by lia. apply conv_causal. rewrite app_length. lia. }
        rewrite Q. ring.
    - rewrite Nat.add_0_l.
      assert (Sq : forall n s, seq (b + s) n = map (fun n => b + n) (seq s n)).
      { induction n as [|n IHn]; intros s; [reflexivity|]. simpl. f_equal. rewrite <- IHn. f_equal. lia. }
      specialize (Sq (length rest * b) 0). rewrite Nat.add_0_r in Sq. rewrite Sq, map_map. apply map_ext_in. intros n _.
      unfold channel. cbn [map concat]. rewrite LH. unfold appended. rewrite firstn_all2 by lia.
      rewrite <- app_assoc. f_equal. f_equal. lia.
  Qed.
End Stream.

(** For every ring of samples, every transform that is linear and satisfies the
    convolution theorem with constant [cst], every block length, filter, gain and input
    stream: sample [n] of the output stream is gain * sum_k h_k x_{n-k}; the newest input
    block contributes to the output block of the same call. *)
Theorem C23_stream :
  forall {T : Type} (rO rI : T) (radd rmul rsub : T -> T -> T) (ropp : T -> T),
  ring_theory rO rI radd rmul rsub ropp eq ->
  forall {K : Type} (kzero : K) (kadd kmul : K -> K -> K) (inj : T -> K)
         (fwd : list T -> list K) (inv : list K -> list T) (dsize : nat -> nat)
         (b : nat) (cst scale : T),
  transform_ok rO radd rmul kzero kadd kmul inj fwd inv dsize b cst ->
  rmul scale cst = rI ->
  forall inputs maxlen entries alignment h idx input gain blocks,
  0 < b -> 0 < maxlen -> idx < entries -> length h <= maxlen -> input < inputs ->
  blocks_ok inputs b blocks ->
  exists c,
    set_ir rO rmul fwd (core_new rO kzero dsize inputs b maxlen entries alignment scale) h idx = Ok c
    /\ stream kadd kmul inj fwd inv c input idx gain blocks
       = Ok (map (fun n => rmul gain (conv rO radd rmul h (channel input blocks) n))
                 (seq 0 (length blocks * b))).
Proof.
  intros T rO rI radd rmul rsub ropp RT K kzero kadd kmul inj fwd inv dsize b cst scale TO Es
    inputs maxlen entries al h idx input gain blocks Hb Hm Hx Lh Hi W.
  destruct (core_new_ok rO rI radd rmul rsub ropp RT kzero kadd kmul inj fwd inv dsize b cst TO
              inputs maxlen entries al scale Hb Hm) as [V _].
  assert (S := set_ir_ok rO rI radd rmul rsub ropp RT kzero kadd kmul inj fwd inv dsize b cst TO
                 _ _ _ _ h idx V eq_refl Es).
  destruct (set_ir rO rmul fwd (core_new rO kzero dsize inputs b maxlen entries al scale) h idx) as [c|e|]; [| |destruct S].
  2:{ destruct S as [_ [S|S]]; simpl in S; lia. }
  destruct S as (_ & _ & V' & Eb & Ei & _). exists c. split; [reflexivity|].
  rewrite (stream_ok rO rI radd rmul rsub ropp RT kzero kadd kmul inj fwd inv dsize b cst c entries (upd (fun _ => []) idx h) input idx gain blocks TO
             Eb) with (H := fun _ => []); auto.
  - unfold upd. now rewrite Nat.eqb_refl.
  - rewrite Ei. exact Hi.
  - rewrite Ei. exact W.
Qed.
Print Assumptions C23_stream.

(** Instance: real samples, the half-spectrum DFT of size 2b, scaling factor 1/(2b). *)
Theorem C23_real_dft :
  forall b inputs maxlen entries alignment (h : list R) idx input (gain : R) blocks,
  0 < b -> 0 < maxlen -> idx < entries -> length h <= maxlen -> input < inputs ->
  blocks_ok inputs b blocks ->
  exists c,
    set_ir 0%R Rmult (rfft b) (core_new 0%R C0 (fun b => b + 1) inputs b maxlen entries alignment (/ INR (2 * b))%R) h idx = Ok c
    /\ stream Cadd Cmul Cinj (rfft b) (irfft b) c input idx gain blocks
       = Ok (map (fun n => (gain * conv 0%R Rplus Rmult h (channel input blocks) n)%R)
                 (seq 0 (length blocks * b))).
Proof.
  intros b inputs maxlen entries al h idx input gain blocks Hb Hm Hx Lh Hi W.
  apply (C23_stream 0%R 1%R Rplus Rmult Rminus Ropp RTheory C0 Cadd Cmul Cinj (rfft b) (irfft b) (fun b => b + 1) b (INR (2 * b)));
    auto.
  - now apply rfft_transform_ok.
  - apply Rinv_l. apply not_0_INR. lia.
Qed.
Print Assumptions C23_real_dft.

Example C23_example :
  exists c,
    set_ir F5.f0 F5.mul (dft F5.f0 F5.add F5.mul 4 F5.w)
      (core_new F5.f0 F5.f0 (fun _ => 4) 1 2 3 1 1 F5.f4) [F5.f1; F5.f2; F5.f3] 0 = Ok c
    /\ stream F5.add F5.mul (fun g => g) (dft F5.f0 F5.add F5.mul 4 F5.w) (idft F5.f0 F5.add F5.mul 4 F5.w) c 0 0 F5.f1
         [[[F5.f1; F5.f1]]; [[F5.f0; F5.f2]]] = Ok [F5.f1; F5.f3; F5.f0; F5.f0].
Proof.
  destruct (C23_stream F5.f0 F5.f1 F5.add F5.mul F5.sub F5.opp F5.ring F5.f0 F5.add F5.mul (fun g => g)
    _ _ (fun _ => 4) 2 F5.f4 F5.f4 F5.transform eq_refl 1 3 1 1 [F5.f1; F5.f2; F5.f3] 0 0 F5.f1
    [[[F5.f1; F5.f1]]; [[F5.f0; F5.f2]]]) as (c & E & S); try (simpl; lia).
  - repeat constructor.
  - exists c. split; [exact E|]. rewrite S. reflexivity.
Qed.

(** ** C24 *)
(** Every history of calls of MultichannelConvolverUniform produces the same returns,
    exceptions and output blocks as the specification, in which output [o] of a block is
    the sum over the inputs [i] with an entry (filter f, gain g) for (i, o) of
    g * (f convolved with the signal received on [i]). *)
Theorem C24_routing_sum :
  forall {T : Type} (rO rI : T) (radd rmul rsub : T -> T -> T) (ropp : T -> T),
  ring_theory rO rI radd rmul rsub ropp eq ->
  forall {K : Type} (kzero : K) (kadd kmul : K -> K -> K) (inj : T -> K)
         (fwd : list T -> list K) (inv : list K -> list T) (dsize : nat -> nat)
         (b : nat) (cst scale : T),
  transform_ok rO radd rmul kzero kadd kmul inj fwd inv dsize b cst ->
  rmul scale cst = rI ->
  forall ni no max nf maxlen alignment ops,
  0 < b -> 0 < maxlen -> Forall (mop_ok ni b) ops ->
  outputs (multi_step rO rmul kzero kadd kmul inj fwd inv dsize)
          (multi_new rO kzero dsize ni no max nf maxlen b alignment scale) ops
  = outputs (spec_step rO radd rmul ni no max nf maxlen b) spec_init ops.
Proof.
  intros T rO rI radd rmul rsub ropp RT K kzero kadd kmul inj fwd inv dsize b cst scale TO Es
    ni no max nf maxlen al ops Hb Hm W.
  apply (run_rel rO rI radd rmul rsub ropp RT kzero kadd kmul inj fwd inv dsize ni no max nf maxlen b cst TO); [|exact W].
  now apply (new_rel rO rI radd rmul rsub ropp RT kzero kadd kmul inj fwd inv dsize ni no max nf maxlen b cst TO).
Qed.
Print Assumptions C24_routing_sum.

Theorem C24_real_dft :
  forall b ni no max nf maxlen alignment (ops : list (mop (T := R))),
  0 < b -> 0 < maxlen -> Forall (mop_ok ni b) ops ->
  outputs (multi_step 0%R Rmult C0 Cadd Cmul Cinj (rfft b) (irfft b) (fun b => b + 1))
          (multi_new 0%R C0 (fun b => b + 1) ni no max nf maxlen b alignment (/ INR (2 * b))%R) ops
  = outputs (spec_step 0%R Rplus Rmult ni no max nf maxlen b) spec_init ops.
Proof.
  intros b ni no max nf maxlen al ops Hb Hm W.
  apply (C24_routing_sum 0%R 1%R Rplus Rmult Rminus Ropp RTheory) with (cst := INR (2 * b)); auto.
  - now apply rfft_transform_ok.
  - apply Rinv_l. apply not_0_INR. lia.
Qed.
Print Assumptions C24_real_dft.

(** An output without entries is silent (in the specification, hence in the code). *)
Theorem C24_unrouted_silent :
  forall {T : Type} (rO rI : T) (radd rmul rsub : T -> T -> T) (ropp : T -> T),
  ring_theory rO rI radd rmul rsub ropp eq ->
  forall {K : Type} (kzero : K) (kadd kmul : K -> K -> K) (inj : T -> K)
         (fwd : list T -> list K) (inv : list K -> list T) (dsize : nat -> nat)
         (b : nat) (cst scale : T),
  transform_ok rO radd rmul kzero kadd kmul inj fwd inv dsize b cst ->
  rmul scale cst = rI ->
  forall ni no max nf maxlen alignment ops input o m y,
  0 < b -> 0 < maxlen -> Forall (mop_ok ni b) (ops ++ [MProcess input]) -> o < no ->
  m = final (multi_step rO rmul kzero kadd kmul inj fwd inv dsize)
        (multi_new rO kzero dsize ni no max nf maxlen b alignment scale) ops ->
  (forall r, In r (m_table m) -> r_out r <> o) ->
  snd (multi_step rO rmul kzero kadd kmul inj fwd inv dsize m (MProcess input)) = EAudio (Ok y) ->
  nth_error y o = Some (repeat rO b).
Proof.
  intros T rO rI radd rmul rsub ropp RT K kzero kadd kmul inj fwd inv dsize b cst scale TO Es
    ni no max nf maxlen al ops input o m y Hb Hm W Ho Em Hr Ey.
  apply Forall_app in W as [W1 W2]. apply Forall_inv in W2.
  destruct (run_rel rO rI radd rmul rsub ropp RT kzero kadd kmul inj fwd inv dsize ni no max nf maxlen b cst TO ops
              (multi_new rO kzero dsize ni no max nf maxlen b al scale) spec_init) as [_ R]; auto.
  { now apply (new_rel rO rI radd rmul rsub ropp RT kzero kadd kmul inj fwd inv dsize ni no max nf maxlen b cst TO). }
  rewrite <- Em in R. set (s := final (spec_step rO radd rmul ni no max nf maxlen b) spec_init ops) in *.
  destruct (step_rel rO rI radd rmul rsub ropp RT kzero kadd kmul inj fwd inv dsize ni no max nf maxlen b cst TO
              m s (MProcess input) R W2) as [_ E]. rewrite Ey in E. cbn [spec_step snd] in E. injection E as ->.
  unfold spec_block. rewrite nth_error_map, (nth_error_nth' _ 0) by (now rewrite seq_length).
  rewrite seq_nth by exact Ho. cbn [option_map]. f_equal.
  apply (list_ext rO); [now rewrite map_length, seq_length, repeat_length|].
  intros k Hk. rewrite map_length, seq_length in Hk. rewrite map_seq_nth, nth_repeat by exact Hk.
  unfold spec_sample. apply (sum_zero rO rI radd rmul rsub ropp RT). intros i _. cbn [s_map Nat.add].
  destruct R as [_ _ _ _ _ _ _ _ _ _ QM]. rewrite <- QM.
  unfold table_map. rewrite find_none_key; [reflexivity|]. intros r Hi. unfold key_is.
  destruct (Nat.eqb_spec (r_out r) o); [destruct (Hr r Hi e)|]. apply andb_false_r.
Qed.
Print Assumptions C24_unrouted_silent.

(** The order in which distinct routings are set does not matter: the resulting states
    are identical, hence everything that follows. *)
Theorem C24_order_irrelevant :
  forall {T K : Type} (rO : T) (rmul : T -> T -> T) (kzero : K) (kadd kmul : K -> K -> K) (inj : T -> K)
         (fwd : list T -> list K) (inv : list K -> list T) (dsize : nat -> nat) (m : multi T K) l l',
  m_table m = [] -> Permutation l l' ->
  NoDup (map (fun r => (r_in r, r_out r)) l) -> length l <= m_max m ->
  Forall (fun r => r_in r < c_inputs (m_core m) /\ r_out r < m_outputs m
                   /\ r_filter r < length (c_filters (m_core m))) l ->
  let step := multi_step rO rmul kzero kadd kmul inj fwd inv dsize in
  final step m (map MSetRouting l) = final step m (map MSetRouting l')
  /\ fst (step m (MInitRoutings l)) = fst (step m (MInitRoutings l'))
  /\ length (m_table (final step m (map MSetRouting l))) = length l.
Proof.
  intros T K rO rmul kzero kadd kmul inj fwd inv dsize m l l' Et P N L V step.
  assert (G : forall (l : list (routing T)) m t, m_table m = t ->
    forall t', set_routings (c_inputs (m_core m)) (m_outputs m) (length (c_filters (m_core m))) (m_max m) t l = (Ok tt, t') ->
    final step m (map MSetRouting l) = with_table m t').
  { clear. induction l as [|x l IH]; intros m t E t' S; simpl in S.
    - injection S as <-. rewrite <- E. now destruct m.
    - simpl map. rewrite final_cons. subst t. unfold step at 2. cbn [multi_step].
      destruct (set_routing _ _ _ _ (m_table m) x) as [[u|e|] t1]; try discriminate. cbn [fst].
      now rewrite (IH (with_table m t1) t1 eq_refl t'). }
  assert (A : forall l : list (routing T), Forall (fun r => r_in r < c_inputs (m_core m) /\ r_out r < m_outputs m
                   /\ r_filter r < length (c_filters (m_core m))) l -> NoDup (map key l) -> length l <= m_max m ->
     set_routings (c_inputs (m_core m)) (m_outputs m) (length (c_filters (m_core m))) (m_max m) [] l = (Ok tt, insert_all l [])).
  { intros l0 V0 N0 L0. apply set_routings_insert; auto.
    - constructor.
    - now apply distinct_pairs. }
  assert (V' := Permutation_Forall P V).
  assert (N' : NoDup (map key l')) by (eapply Permutation_NoDup; [apply Permutation_map; exact P|exact N]).
  assert (L' := Permutation_length P).
  assert (A1 := A l V N L). assert (A2 := A l' V' N' ltac:(lia)).
  assert (Q := insert_all_perm l l' P N []). split; [|split].
  - rewrite (G l m [] Et _ A1), (G l' m [] Et _ A2). now rewrite Q.
  - unfold step. cbn [multi_step]. unfold init_routings.
    destruct (Nat.ltb_spec (m_max m) (length l)); [lia|]. destruct (Nat.ltb_spec (m_max m) (length l')); [lia|].
    rewrite A1, A2. cbn [fst]. now rewrite Q.
  - rewrite (G l m [] Et _ A1). cbn [with_table m_table].
    assert (Z : forall (l t : list (routing T)), length (insert_all l t) = length l + length t).
    { clear. induction l as [|x l IH]; intros t; simpl; [reflexivity|]. rewrite IH, ms_insert_length. lia. }
    rewrite Z. simpl. lia.
Qed.
Print Assumptions C24_order_irrelevant.

(** Two inputs, two outputs: output 0 = 2 * (filter 0 * input 0) + filter 1 * input 1,
    output 1 silent; then an entry is replaced. *)
Definition ops24 : list (mop (T := F5.f5)) :=
  [ MInitFilters [[F5.f1; F5.f2; F5.f3]; [F5.f1; F5.f0; F5.f0]] 3;
    MSetRouting (MkRouting 1 0 1 F5.f1); MSetRouting (MkRouting 0 0 0 F5.f2);
    MSetRouting (MkRouting 0 2 0 F5.f1);
    MProcess [[F5.f1; F5.f1]; [F5.f3; F5.f0]];
    MRemoveRouting 1 0;
    MProcess [[F5.f0; F5.f2]; [F5.f1; F5.f1]] ].
Example C24_example :
  outputs (multi_step F5.f0 F5.mul F5.f0 F5.add F5.mul (fun g => g)
            (dft F5.f0 F5.add F5.mul 4 F5.w) (idft F5.f0 F5.add F5.mul 4 F5.w) (fun _ => 4))
          (multi_new F5.f0 F5.f0 (fun _ => 4) 2 2 2 2 3 2 1 F5.f4) ops24
  = [ EReturn (Ok tt); EReturn (Ok tt); EReturn (Ok tt); EReturn (Throw InvalidArgument);
      EAudio (Ok [[F5.f0; F5.f1]; [F5.f0; F5.f0]]);
      EReturn (Ok tt);
      EAudio (Ok [[F5.f0; F5.f0]; [F5.f0; F5.f0]]) ].
Proof.
  rewrite (C24_routing_sum F5.f0 F5.f1 F5.add F5.mul F5.sub F5.opp F5.ring F5.f0 F5.add F5.mul (fun g => g)
    _ _ (fun _ => 4) 2 F5.f4 F5.f4 F5.transform eq_refl); [|lia|lia|repeat constructor].
  reflexivity.
Qed.

(** ** C25 *)
Section Edits.
  Context {T : Type} (zero : T).
  Inductive edit := Set_ (x : routing T) | Remove_ (i o : nat) | Init_ (l : list (routing T)).
  (** The table of MultichannelConvolverUniform and CrossfadingConvolverUniform with
      [ni] inputs, [no] outputs, [nf] filter slots and capacity [max]. *)
  Definition edit_step (ni no nf max : nat) (t : list (routing T)) (e : edit) : list (routing T) * res unit :=
    match e with
    | Set_ x => let '(r, t') := set_routing ni no nf max t x in (t', r)
    | Remove_ i o => (snd (remove_routing zero t i o), Ok tt)
    | Init_ l => let '(r, t') := init_routings ni no nf max l in (t', r)
    end.
  Definition map_step (ni no nf max : nat) (m : @fmap T) (e : edit) : @fmap T * res unit :=
    match e with
    | Set_ x => match fset_entry ni no nf max m x with
                | Some m' => (m', Ok tt)
                | None => (m, Throw InvalidArgument)
                end
    | Remove_ i o => (fset m i o None, Ok tt)
    | Init_ l => if max <? length l then (fempty, Throw InvalidArgument) else spec_sets ni no max nf fempty l
    end.
End Edits.

(** After any history of edits the table represents the map obtained by the same
    history on finite maps, with the same returns and exceptions; it holds at most one
    entry per (input, output), at most [max] entries, and only valid indices. *)
Theorem C25_map_semantics :
  forall {T : Type} (zero : T) ni no nf max es,
  let t := final (edit_step zero ni no nf max) [] es in
  outputs (edit_step zero ni no nf max) [] es = outputs (map_step ni no nf max) fempty es
  /\ (forall i o, table_map t i o = final (map_step ni no nf max) fempty es i o)
  /\ (forall r r', In r t -> In r' t -> r_in r = r_in r' -> r_out r = r_out r' -> r = r')
  /\ NoDup t
  /\ length t <= max
  /\ (forall r, In r t -> r_in r < ni /\ r_out r < no /\ r_filter r < nf).
Proof.
  intros T zero ni no nf max es t.
  assert (G : forall es t0 m0, table_ok ni no max nf t0 m0 ->
    outputs (edit_step zero ni no nf max) t0 es = outputs (map_step ni no nf max) m0 es
    /\ table_ok ni no max nf (final (edit_step zero ni no nf max) t0 es) (final (map_step ni no nf max) m0 es)).
  { clear t es. induction es as [|e es IH]; intros t0 m0 H; [split; [reflexivity|exact H]|].
    rewrite !outputs_cons, !final_cons.
    assert (S : table_ok ni no max nf (fst (edit_step zero ni no nf max t0 e)) (fst (map_step ni no nf max m0 e))
                /\ snd (edit_step zero ni no nf max t0 e) = snd (map_step ni no nf max m0 e)).
    { destruct e as [x|i o|l]; cbn [edit_step map_step].
      - assert (S := set_entry_rel ni no max nf t0 m0 x H).
        destruct (fset_entry ni no nf max m0 x).
        + destruct S as (t' & E & K). rewrite E. auto.
        + rewrite S. auto.
      - split; [|reflexivity]. cbn [fst]. destruct H as (V & L & B & M).
        destruct (remove_routing_ok zero ni no max t0 i o V L) as (A & B' & C').
        split; [exact A|]. split; [exact B'|]. split.
        + intros r Hr. unfold remove_routing in Hr. apply erase_not_in in Hr. now apply B.
        + intros i' o'. rewrite C'. unfold fset. now rewrite M.
      - unfold init_routings. destruct (max <? length l).
        + split; [apply empty_ok|reflexivity].
        + destruct (sets_rel ni no max nf l [] fempty (empty_ok ni no max nf)) as (t' & E & K). rewrite E.
          destruct (spec_sets ni no max nf fempty l) as [m' r]. auto. }
    destruct S as [S1 S2]. rewrite S2. destruct (IH _ _ S1) as [I1 I2]. now rewrite I1. }
  destruct (G es [] fempty (empty_ok ni no max nf)) as [G1 (V & L & B & M)]. fold t in V, L, B, M.
  split; [exact G1|]. split; [exact M|].
  assert (U : forall r r', In r t -> In r' t -> r_in r = r_in r' -> r_out r = r_out r' -> r = r').
  { destruct V as [S _]. clear -S. induction S as [|x t S IH F]; intros r r' Hr Hr' E1 E2; [destruct Hr|].
    rewrite Forall_forall in F.
    destruct Hr as [->|Hr], Hr' as [<-|Hr']; auto.
    - specialize (F _ Hr'). apply r_less_spec in F. lia.
    - specialize (F _ Hr). apply r_less_spec in F. lia. }
  split; [exact U|]. split.
  { destruct V as [S _]. clear -S. induction S as [|x t S IH F]; constructor; auto.
    intros Hi. rewrite Forall_forall in F. specialize (F _ Hi). apply r_less_spec in F. lia. }
  split; [exact L|]. intros r Hr. destruct (proj2 V r Hr). auto.
Qed.
Print Assumptions C25_map_semantics.

(** A rejected setRoutingEntry leaves the table itself unchanged: the erasure that
    precedes the capacity check never hits a rejected call. *)
Theorem C25_rejected_unchanged :
  forall {T : Type} (zero : T) ni no nf max es (x : routing T) e t',
  let t := final (edit_step zero ni no nf max) [] es in
  set_routing ni no nf max t x = (Throw e, t') ->
  t' = t /\ e = InvalidArgument
  /\ (ni <= r_in x \/ no <= r_out x \/ nf <= r_filter x
      \/ (length t = max /\ forall r, In r t -> ~ (r_in r = r_in x /\ r_out r = r_out x))).
Proof.
  intros T zero ni no nf max es x e t' t E.
  destruct (C25_map_semantics zero ni no nf max es) as (_ & M & _ & _ & L & V). fold t in M, L, V.
  assert (S : sorted t).
  { assert (G : forall es t0, sorted t0 -> sorted (final (edit_step zero ni no nf max) t0 es)); [|apply G; constructor].
    assert (SR : forall t0 (x : routing T), sorted t0 -> sorted (snd (set_routing ni no nf max t0 x))).
    { intros t0 y S0. unfold set_routing. destruct (_ <=? _); [exact S0|]. destruct (_ <=? _); [exact S0|].
      destruct (_ <=? _); [exact S0|]. rewrite ms_erase_one_range by exact S0.
      assert (sorted (ms_erase_range y t0)) by (now apply filter_sorted).
      destruct (_ <=? _); simpl; [assumption|]. apply ms_insert_sorted; [assumption|].
      intros z Hz. now apply erase_not_in in Hz. }
    clear -SR. induction es as [|e es IH]; intros t0 S0; [exact S0|]. rewrite final_cons. apply IH.
    destruct e as [x|i o|l]; cbn [edit_step].
    - specialize (SR t0 x S0). destruct (set_routing ni no nf max t0 x). exact SR.
    - cbn [fst]. unfold remove_routing. now apply filter_sorted.
    - unfold init_routings. destruct (_ <? _); [constructor|].
      assert (Q : forall (l t0 : list (routing T)), sorted t0 -> sorted (snd (set_routings ni no nf max t0 l))).
      { clear -SR. induction l as [|y l IH]; intros t0 S0; simpl; [exact S0|].
        specialize (SR t0 y S0). destruct (set_routing ni no nf max t0 y) as [[u|e|] t1]; cbn [snd] in *; auto. }
      specialize (Q l [] ltac:(constructor)). destruct (set_routings ni no nf max [] l). exact Q. }
  assert (Vd : valid ni no t) by (split; [exact S|]; intros r Hr; destruct (V r Hr) as (? & ? & ?); auto).
  assert (R := set_routing_ok ni no nf max t x Vd L).
  destruct (fset_entry ni no nf max (table_map t) x) eqn:Fe.
  { destruct R as (t2 & E2 & _). rewrite E2 in E. discriminate. }
  rewrite R in E. injection E as <- <-. split; [reflexivity|]. split; [reflexivity|].
  unfold fset_entry in Fe. rewrite <- (table_length ni no t Vd) in Fe.
  destruct (Nat.ltb_spec (r_in x) ni); [|lia]. destruct (Nat.ltb_spec (r_out x) no); [|lia].
  destruct (Nat.ltb_spec (r_filter x) nf); [|lia]. cbn [andb] in Fe. right. right. right.
  unfold table_map in Fe. destruct (find (key_is (r_in x) (r_out x)) t) as [y|] eqn:Ff; [discriminate|].
  simpl in Fe. destruct (Nat.ltb_spec (length t) max); [discriminate|]. split; [lia|].
  intros r Hr [A B]. apply (find_existing x t Ff r Hr). split; congruence.
Qed.
Print Assumptions C25_rejected_unchanged.

(** removeRoutingEntry does not report whether the entry existed: with one entry
    (input 0, output 1), removing the absent (input 0, output 0) returns true; and
    removing a present entry compares an iterator invalidated by the erasure. *)
Theorem C25_remove_result_refuted :
  exists (t : list (routing nat)) i o,
    t = final (edit_step 0 2 2 1 4) [] [Set_ (MkRouting 0 1 0 1)]
    /\ table_map t i o = None
    /\ fst (remove_routing 0 t i o) = Ok true
    /\ fst (remove_routing 0 t 0 1) = UB.
Proof. exists [MkRouting 0 1 0 1], 0, 0. repeat split. Qed.
Print Assumptions C25_remove_result_refuted.

Example C25_example :
  let es := [ Set_ (MkRouting 1 0 0 7); Set_ (MkRouting 0 0 1 5); Set_ (MkRouting 1 0 1 9); Set_ (MkRouting 1 1 0 3);
              Remove_ 0 0; Set_ (MkRouting 1 1 0 4); Set_ (MkRouting 2 1 0 4) ] in
  run (edit_step 0 2 2 2 2) [] es
  = ([MkRouting 1 0 1 9; MkRouting 1 1 0 4],
     [Ok tt; Ok tt; Ok tt; Throw InvalidArgument; Ok tt; Ok tt; Throw InvalidArgument]).
Proof. reflexivity. Qed.
