(** C33: a block processed by an audio flow is one evaluation of the data flow graph. *)
From Verif Require Import Base FlowModel FlowProofs FlowResolve FlowTree FlowProps SchedModel SchedProofs SchedProps
  LayoutModel LayoutTables LayoutProofs LayoutAddr LayoutProps DataflowModel DataflowSpec DataflowProofs DataflowFlow DataflowBlock
  DataflowUnique DataflowHier DataflowAtomic.
From Coq Require Import Permutation.
Local Open Scope res_scope.

(** the channels copied by inserted components are aligned to 16 samples *)
Definition copies_aligned (type_size : nat -> nat) (alignment pool_base : nat) (fl : flow) : Prop :=
  forall r, In r (y_routings (f_layout fl)) -> alignment <> 0
    /\ Nat.divide (16 * type_size (r_type r)) alignment /\ Nat.divide (16 * type_size (r_type r)) pool_base.
(** the external ports have sample type float *)
Definition external_float (o : objects) (root : comp) : Prop := forall p, In p (comp_audio root) -> a_type o p = 0.

(** What the two process() functions of a flow do: the components run once each in the order
    [order], on the values of the channels that are connected to their inputs; external inputs
    carry the captured samples and the playback samples are those arriving at the external
    outputs.  If a component throws, the block ends with the exception of the function. *)
Definition runs_blocks (o : objects) (type_size : nat -> nat) (block alignment : nat) (root : comp) (fl : flow)
           (source : channel -> channel -> Prop) (order : list comp) : Prop :=
  forall (W B : Type) (behaviour : nat -> W -> list (list B) -> res (W * list (list B))) pool_base w m
         (capture before : nat * nat -> list B),
    well_behaved o type_size block root behaviour -> copies_aligned type_size alignment pool_base fl ->
    (forall p, length (capture p) = type_size 0) ->
    (forall captureStride playbackStride, playbackStride <> 0 ->
       block_outcome o block root source (type_size 0) behaviour order InvalidArgument
         (fun n i => (n, i * captureStride)) (fun n i => (n, i * playbackStride)) capture before w
         (process o type_size block pool_base root fl behaviour captureStride playbackStride capture before (w, m)))
    /\ (forall captureChannel captureSample playbackChannel playbackSample,
       let ppos n i := (0, n * playbackChannel + i * playbackSample) in
       positions_differ block ppos (length (external o root Output)) ->
       block_outcome o block root source (type_size 0) behaviour order RuntimeError
         (fun n i => (0, n * captureChannel + i * captureSample)) ppos capture before w
         (process_strided o type_size block pool_base root fl behaviour captureChannel captureSample playbackChannel playbackSample
            capture before (w, m))).

Lemma strides_differ block stride n : stride <> 0 -> positions_differ block (fun ch i => (ch, i * stride)) n.
Proof. intros H a i b j _ _ _ _ E. injection E as -> E. split; [reflexivity|]. now apply Nat.mul_cancel_r in E. Qed.

(** *** Flows given by flat tables *)
Theorem C33_flat_partial : forall o type_size block alignment partition alloc infrastructure root conns params,
  closed_flow o root conns params -> flat o conns -> new_addresses root alloc -> (forall l, Permutation (partition l) l) ->
  sample_sizes o type_size alignment conns -> external_float o root ->
  match construct_flat o type_size block alignment partition alloc infrastructure root conns params with
  | Ok fl => infrastructure params = true /\ ~ cyclic root (feeds o conns params)
      /\ exists order, dependency_order root (feeds o conns params) order
           /\ runs_blocks o type_size block alignment root fl (fun s d => In (s, d) conns) order
  | Throw e => (e = RuntimeError /\ infrastructure params = false) \/ (e = InvalidArgument /\ cyclic root (feeds o conns params))
  | UB => False
  end.
Proof.
  intros o type_size block alignment partition alloc infrastructure root conns params CF F NA P SZ XF.
  pose proof (new_objects_conns o alloc root conns params CF NA) as N.
  assert (X : exists y, initialiseAudioConnections o type_size block alignment partition alloc root conns = Ok y
            /\ good_layout o type_size block alignment conns y (comp_audio root)
            /\ exists D, (forall p, In p D <-> receiver conns p) /\ global_inv o alloc conns D (y_conns y) (y_routings y)
               /\ forall r, In r (y_routings y) -> length (r_indices r) = a_width o (r_for r)).
  { pose proof (c_composite _ _ _ _ CF) as CR. pose proof (c_external _ _ _ _ CF) as Ext. destruct root as [|i au pa children cs ps]; [discriminate|].
    exact (run_good o type_size block alignment partition alloc conns F N P SZ i au pa children cs ps Ext). }
  destruct X as (y & Ey & GL & D & HD & G & LI). unfold construct_flat. rewrite Ey. cbn [bind].
  destruct (infrastructure params) eqn:EI; cbn [negb]; [|left; auto].
  pose proof (C28_schedule (with_routings o (y_routings y)) (add_components root (y_routings y)) (y_conns y) params
    (describes_extended o alloc root conns params y D CF NA G) (addresses_extended o alloc root conns params y D CF NA G)
    (senders_extended o alloc root conns params y D CF NA G)) as S.
  destruct (extended_root o root conns params y CF) as (_ & _ & _ & CR'). specialize (S ltac:(congruence)).
  pose proof (cyclic_same o alloc root conns params y D CF F NA HD G LI) as CY.
  destruct (initialiseSchedule (with_routings o (y_routings y)) _ (y_conns y) params) as [sched|e|]; cbn [bind]; [|right; now rewrite <- CY|exact S].
  destruct S as (S1 & S2 & S3 & S4). split; [reflexivity|]. split; [now rewrite <- CY|].
  set (fl := Flow y sched).
  destruct (x_order o alloc root conns params fl D CF F NA HD G LI S1 S2 S3) as (order & O1 & O2). exists order. split; [exact O2|].
  intros W B behaviour pool_base w m capture before WB AL HL.
  pose proof (x_block o type_size block alignment alloc root conns params fl D CF F NA GL HD G LI S1 S2 S3 behaviour pool_base WB AL XF order) as XB.
  split.
  - intros cs ps Hps. apply (XB InvalidArgument); [exact O1|exact HL|now apply strides_differ].
  - intros cc cs pc ps ppos PD. apply (XB RuntimeError); [exact O1|exact HL|exact PD].
Qed.

(** *** The result does not depend on the layout *)
(** Two flows for the same tables, with whatever alignments, orders of ports, inserted components
    and contents of the pool, give the same samples and the same changes of the world, provided
    that components that are not connected do not influence each other. *)
Theorem C33_layout_independent_partial : forall o type_size block root conns params
    alignment partition alloc infrastructure fl alignment' partition' alloc' infrastructure' fl',
  closed_flow o root conns params -> flat o conns -> external_float o root ->
  new_addresses root alloc -> (forall l, Permutation (partition l) l) -> sample_sizes o type_size alignment conns ->
  new_addresses root alloc' -> (forall l, Permutation (partition' l) l) -> sample_sizes o type_size alignment' conns ->
  construct_flat o type_size block alignment partition alloc infrastructure root conns params = Ok fl ->
  construct_flat o type_size block alignment' partition' alloc' infrastructure' root conns params = Ok fl' ->
  forall (W B : Type) (behaviour : nat -> W -> list (list B) -> res (W * list (list B))) base base' w m m' capture before cs ps
         wr mr after wr' mr' after',
    well_behaved o type_size block root behaviour -> independent root (feeds o conns params) behaviour ->
    copies_aligned type_size alignment base fl -> copies_aligned type_size alignment' base' fl' ->
    (forall p, length (capture p) = type_size 0) -> ps <> 0 ->
    process o type_size block base root fl behaviour cs ps capture before (w, m) = Ok (wr, mr, after) ->
    process o type_size block base' root fl' behaviour cs ps capture before (w, m') = Ok (wr', mr', after') ->
    wr = wr' /\ forall p, after p = after' p.
Proof.
  intros o type_size block root conns params alignment partition alloc infrastructure fl alignment' partition' alloc' infrastructure' fl'
    CF F XF NA P SZ NA' P' SZ' E E' W B behaviour base base' w m m' capture before cs ps wr mr after wr' mr' after' WB I AL AL' HL Hps R R'.
  pose proof (C33_flat_partial o type_size block alignment partition alloc infrastructure root conns params CF F NA P SZ XF) as T. rewrite E in T.
  pose proof (C33_flat_partial o type_size block alignment' partition' alloc' infrastructure' root conns params CF F NA' P' SZ' XF) as T'. rewrite E' in T'.
  destruct T as (_ & _ & order & O & T). destruct T' as (_ & _ & order' & O' & T').
  destruct (T W B behaviour base w m capture before WB AL HL) as [K _]. specialize (K cs ps Hps). rewrite R in K.
  destruct (T' W B behaviour base' w m' capture before WB AL' HL) as [K' _]. specialize (K' cs ps Hps). rewrite R' in K'.
  destruct K as (V & X1 & X2 & X3 & X4). destruct K' as (V' & Y1 & Y2 & Y3 & Y4).
  destruct (dependency_unique o root conns params behaviour order order' CF F I O O' V V' w wr wr') as [U1 U2]; [|exact X1|exact Y1|].
  { intros c Hc. apply In_nth_error in Hc as (n & Hn). now rewrite (X2 n c Hn), (Y2 n c Hn). }
  split; [exact U1|]. intros p.
  set (positions := flat_map (fun n => map (fun i => (n, i * ps)) (seq 0 block)) (seq 0 (length (external o root Output)))).
  assert (PI : forall q, In q positions <-> exists n i, n < length (external o root Output) /\ i < block /\ q = (n, i * ps)).
  { intros q. unfold positions. rewrite in_flat_map. split.
    - intros (n & Hn & H). apply in_map_iff in H as (i & <- & Hi). apply in_seq in Hn, Hi. exists n, i. repeat split; lia.
    - intros (n & i & Hn & Hi & ->). exists n. split; [apply in_seq; lia|]. apply in_map_iff. exists i. split; [reflexivity|]. apply in_seq. lia. }
  assert (dec : forall a b : nat * nat, {a = b} + {a <> b}) by (decide equality; apply Nat.eq_dec).
  destruct (in_dec dec p positions) as [Hp|Np].
  - apply PI in Hp as (n & i & Hn & Hi & ->). destruct (nth_error (external o root Output) n) as [d|] eqn:En; [|apply nth_error_None in En; lia].
    destruct (X3 n d En) as (v & (s & Hs & ->) & Ev). destruct (Y3 n d En) as (v' & (s' & Hs' & ->) & Ev'). rewrite (Ev i Hi), (Ev' i Hi).
    rewrite <- (nodup_single conns (f_single _ _ F) s s' d Hs Hs'). now rewrite (U2 s d Hs).
  - assert (forall n i, n < length (external o root Output) -> i < block -> p <> (n, i * ps)) as H.
    { intros n i Hn Hi ->. apply Np. apply PI. eauto. }
    rewrite (X4 p H), (Y4 p H). reflexivity.
Qed.

(** *** Flows given by a hierarchy of components *)
Theorem C33_hierarchy_partial : forall o type_size block alignment partition alloc infrastructure root,
  NoDup (all_audio root) -> NoDup (addresses root) -> describes o root -> is_composite root = true ->
  (forall s s' d, pinner root d -> plinked root s d -> plinked root s' d -> s = s') ->
  (forall s d, linked root s d -> a_type o (fst s) = a_type o (fst d) /\ a_type o (fst s) <= 8
     /\ type_size (a_type o (fst s)) <> 0 /\ (alignment = 0 \/ Nat.divide (type_size (a_type o (fst s))) alignment)) ->
  new_addresses root alloc -> (forall l, Permutation (partition l) l) -> external_float o root ->
  match construct o type_size block alignment partition alloc infrastructure root with
  | Ok fl => checkConnectionIntegrity o root = true /\ ~ cyclic root (fun a b => depends root b a)
      /\ exists order, dependency_order root (fun a b => depends root b a) order
           /\ runs_blocks o type_size block alignment root fl
                (fun s d => endpoint root (fst s) /\ endpoint root (fst d) /\ wired root s d) order
  | Throw _ => checkConnectionIntegrity o root = false
      \/ (exists c d, inner root (fst c) /\ wired root c c /\ wired root c d /\ endpoint root (fst d))
      \/ (exists c d, pinner root c /\ pwired root c c /\ pwired root c d /\ pendpoint root d)
      \/ (exists pm params, pfill_recursive o root [] = (true, pm) /\ presolve o pm = Ok params
            /\ (forall s d, In (d, s) params <-> pendpoint root s /\ pendpoint root d /\ pwired root s d) /\ infrastructure params = false)
      \/ cyclic root (fun a b => depends root b a)
  | UB => False
  end.
Proof.
  intros o type_size block alignment partition alloc infrastructure root NA ND D CR single HT NW P XF.
  unfold construct. destruct (checkConnectionIntegrity o root) eqn:HC; cbn [negb]; [|now left].
  pose proof HC as HC'. apply andb_true_iff in HC' as [HCa HCp].
  destruct (C29_hierarchy_transparent o root NA D HCa) as (m & Em & H). rewrite Em. cbn [bind].
  destruct (resolvePlaceholders o m) as [r|e|] eqn:Er; cbn [bind]; [|right; left; now destruct H|exact H].
  destruct H as (HR & _).
  destruct (C30_hierarchy_transparent_partial o root D HCp single) as (pm & Epm & Hp). rewrite Epm. cbn [negb].
  destruct (presolve o pm) as [pr|e|] eqn:Epr; cbn [bind]; [|right; right; left; exact Hp|exact Hp]. destruct Hp as (HP & _).
  pose proof (resolved_closed o root m r pm pr NA ND D HCa HCp single CR Em Er Epm Epr) as CF.
  pose proof (resolved_flat o root m r NA D HCa Em Er (fun s d L => conj (proj1 (HT s d L)) (proj1 (proj2 (HT s d L))))) as F.
  assert (SZ : sample_sizes o type_size alignment r).
  { intros s d H. apply HR in H as (_ & _ & Wi). apply wired_first in Wi as (e & L). split; apply (HT s e L). }
  pose proof (C33_flat_partial o type_size block alignment partition alloc infrastructure root r pr CF F NW P SZ XF) as T.
  pose proof (cyclic_depends o root m r pm pr NA D HCa HCp single Em Er Epm Epr) as CY.
  destruct (construct_flat o type_size block alignment partition alloc infrastructure root r pr) as [fl|e|]; [| |exact T].
  - destruct T as (_ & NC & order & O & T). split; [reflexivity|]. split; [now rewrite <- CY|]. exists order.
    split; [now apply (order_depends o root m r pm pr NA D HCa HCp single Em Er Epm Epr)|].
    intros W B behaviour base w mem capture before WB AL HL. destruct (T W B behaviour base w mem capture before WB AL HL) as [T1 T2].
    split; intros; (apply outcome_ext with (source := fun s d => In (s, d) r); [exact HR|]); [now apply T1|now apply T2].
  - destruct T as [[_ T]|[_ T]]; right; right; right; [left; exists pm, pr; auto|right; now apply CY].
Qed.

(** *** Flows that are a single atomic component *)
Theorem C33_atomic_partial : forall o type_size block alignment partition alloc infrastructure id audio ps,
  NoDup audio -> external_float o (Atomic id audio ps) ->
  type_size 0 <> 0 -> (alignment = 0 \/ Nat.divide (type_size 0) alignment) -> infrastructure [] = true ->
  exists fl, construct o type_size block alignment partition alloc infrastructure (Atomic id audio ps) = Ok fl
    /\ runs_blocks o type_size block alignment (Atomic id audio ps) fl eq [Atomic id audio ps].
Proof.
  intros o type_size block alignment partition alloc infrastructure id audio ps ND XF S1 S2 EI. cbn in XF.
  destruct (C32_atomic_partial o type_size block alignment partition alloc id audio ps [] 0 ND XF S1 S2) as (y & Ey & O & DJ & XA).
  assert (RY : y_routings y = []) by (unfold initialiseAudioConnections in Ey; now apply finish_routings in Ey).
  exists (Flow y [id]). split.
  - unfold construct. cbn [checkConnectionIntegrity check_audio check_params andb negb amap_new fill_recursive bind resolvePlaceholders fold_left
      pfill_recursive presolve]. unfold construct_flat. rewrite Ey. cbn [bind]. rewrite EI. reflexivity.
  - intros W B behaviour pool_base w m capture before WB _ HL. split.
    + intros cs pst Hps. apply (a_block o type_size block alignment id audio ps y ND XF RY O DJ XA behaviour pool_base WB); [exact HL|now apply strides_differ].
    + intros cc cs pc pst ppos PD. apply (a_block o type_size block alignment id audio ps y ND XF RY O DJ XA behaviour pool_base WB); assumption.
Qed.

(** *** Examples *)
(** Every component adds its number to the samples and to the world. *)
Definition adding (c : nat) (w : nat) (ins : list (list nat)) : res (nat * list (list nat)) := Ok (w + c, map (map (Nat.add c)) ins).
Lemma ex_new : new_addresses ex_flow ex_alloc.
Proof.
  constructor.
  - intros n m [] [] H; unfold new_port, ex_alloc in H; cbn in H; (split; [lia|]); try reflexivity; lia.
  - intros n m H. unfold new_comp, ex_alloc in H. cbn in H. lia.
  - intros n a H. assert (20 <= new_port ex_alloc n a) by (unfold new_port, ex_alloc; cbn; destruct a; lia).
    cbn -[new_port] in H. lia.
  - intros n H. unfold new_comp, ex_alloc in H. cbn in H. lia.
Qed.
(** The flow of FlowProps with blocks of 2 one-byte samples and 16-byte alignment: components 2
    and 3 in this order, channels swapped twice by two inserted components *)
Example C33_example :
  NoDup (all_audio ex_flow) /\ NoDup (addresses ex_flow) /\ describes ex_objects ex_flow
  /\ new_addresses ex_flow ex_alloc /\ external_float ex_objects ex_flow
  /\ well_behaved ex_objects (fun _ => 1) 2 ex_flow adding
  /\ exists fl, construct ex_objects (fun _ => 1) 2 16 (fun l => l) ex_alloc (fun _ => true) ex_flow = Ok fl
     /\ length (y_routings (f_layout fl)) = 2 /\ copies_aligned (fun _ => 1) 16 0 fl
     /\ match process ex_objects (fun _ => 1) 2 0 ex_flow fl adding 1 3 (fun p => [10 * fst p + snd p]) (fun _ => []) (100, fun _ => 0) with
        | Ok (w, _, after) => w = 105 /\ map after [(0, 0); (0, 1); (0, 3); (1, 0); (1, 3)] = [[5]; []; [6]; [15]; [16]]
        | _ => False
        end.
Proof.
  split; [repeat constructor; cbn; intuition discriminate|]. split; [repeat constructor; cbn; intuition discriminate|].
  split; [exact ex_describes|]. split; [exact ex_new|]. split; [intros p _; reflexivity|]. split.
  - intros x w ins w' outs [Hx Ax] L E. apply Ok_inj in E. injection E as _ <-.
    assert (S : forall x, inside x ex_flow -> In x (subcomps ex_flow)) by (intros z; apply inside_subcomps). cbn in S. apply S in Hx.
    members; try discriminate; cbn in L |- *; rewrite map_map, (map_ext _ (@length nat)); try (intros; apply map_length); exact L.
  - eexists. split; [vm_compute; reflexivity|]. split; [reflexivity|]. split.
    + intros r _. split; [discriminate|]. split; [now exists 1|now exists 0].
    + vm_compute. split; reflexivity.
Qed.
(** an atomic flow with two inputs and one output that adds them *)
Definition mix_objects : objects :=
  Objects (fun p => if p =? 0 then Input else Output) (fun p => if p =? 0 then 2 else 1) (fun _ => 0) (fun _ => 0)
          (fun _ => Input) (fun _ => 0) (fun _ => 0) (fun _ => 0) (fun _ => 0) (fun _ _ => Some true) (fun _ => false) (fun _ => true).
Definition mixing (c w : nat) (ins : list (list nat)) : res (nat * list (list nat)) :=
  match ins with [a; b] => Ok (S w, [map (fun p => fst p + snd p) (combine a b)]) | _ => Throw InvalidArgument end.
Example C33_atomic_example :
  well_behaved mix_objects (fun _ => 1) 2 (Atomic 0 [0; 1] []) mixing
  /\ exists fl, construct mix_objects (fun _ => 1) 2 0 (fun l => l) ex_alloc (fun _ => true) (Atomic 0 [0; 1] []) = Ok fl
     /\ match process_strided mix_objects (fun _ => 1) 2 0 (Atomic 0 [0; 1] []) fl mixing 1 2 1 1
                (fun p => [snd p]) (fun _ => []) (0, fun _ => 7) with
        | Ok (w, _, after) => w = 1 /\ map after [(0, 0); (0, 1); (0, 2)] = [[1]; [5]; []]
        | _ => False
        end.
Proof.
  split.
  - intros x w ins w' outs [Hx Ax] L E.
    assert (S : In x (subcomps (Atomic 0 [0; 1] []))) by now apply inside_subcomps. cbn in S. members. cbn in L |- *.
    destruct ins as [|a [|b [|? ?]]]; try discriminate. apply Ok_inj in E. injection E as _ <-. cbn in L |- *. injection L as L1 L2.
    now rewrite map_length, combine_length, L1, L2.
  - eexists. split; [vm_compute; reflexivity|]. vm_compute. split; reflexivity.
Qed.

(** *** Refutations *)
(** Two double channels (8-byte samples) exchanged between two components: the inserted
    component demands an alignment of 16 samples (128 bytes), the pool has 64 bytes.  The block
    fails although no component throws. *)
Definition double_objects : objects :=
  Objects (fun p => if p =? 3 then Input else Output) (fun _ => 2) (fun _ => 1) (fun p => p - 1)
          (fun _ => Input) (fun _ => 0) (fun _ => 0) (fun _ => 0) (fun _ => 0) (fun _ _ => Some true) (fun c => c =? 0) (fun c => c =? 0).
Definition double_flow : comp := Composite 0 [] [] [Atomic 1 [2] []; Atomic 2 [3] []] [AConn 2 3 [0; 1] [1; 0]] [].
Definition silent (c w : nat) (ins : list (list nat)) : res (nat * list (list nat)) :=
  Ok (w, if c =? 1 then [repeat 0 64; repeat 0 64] else []).
Theorem C33_double_routing_refuted : exists o block root fl behaviour,
  NoDup (all_audio root) /\ NoDup (addresses root) /\ describes o root /\ new_addresses root ex_alloc
  /\ (forall s d, linked root s d -> a_type o (fst s) = a_type o (fst d) /\ a_type o (fst s) = 1)
  /\ external_float o root
  /\ construct o two_sizes block 64 (fun l => l) ex_alloc (fun _ => true) root = Ok fl
  /\ well_behaved o two_sizes block root behaviour
  /\ (forall c (w : nat) (ins : list (list nat)), exists r, behaviour c w ins = Ok r)
  /\ forall capture before w m, process o two_sizes block 0 root fl behaviour 1 1 capture before (w, m) = Throw InvalidArgument.
Proof.
  assert (S : forall x, inside x double_flow -> In x (subcomps double_flow)) by (intros z; apply inside_subcomps). cbn in S.
  exists double_objects, 8, double_flow. eexists. exists silent.
  split; [repeat constructor; cbn; intuition discriminate|]. split; [repeat constructor; cbn; intuition discriminate|]. split.
  { split; [|split; [|split]].
    - intros x p Hx Hp. apply S in Hx. members; cbn in Hp; members; reflexivity.
    - intros x p Hx Hp. apply S in Hx. members; cbn in Hp; members; reflexivity.
    - intros x Hx. apply S in Hx. members; reflexivity.
    - intros x Hx. apply S in Hx. members; cbn; split; intros H; try reflexivity; discriminate. }
  split.
  { constructor.
    - intros n m [] [] H; unfold new_port, ex_alloc in H; cbn in H; (split; [lia|]); try reflexivity; lia.
    - intros n m H. unfold new_comp, ex_alloc in H. cbn in H. lia.
    - intros n a H. assert (20 <= new_port ex_alloc n a) by (unfold new_port, ex_alloc; cbn; destruct a; lia). cbn -[new_port] in H. lia.
    - intros n H. unfold new_comp, ex_alloc in H. cbn in H. lia. }
  split; [intros; split; reflexivity|]. split; [intros p []|].
  split; [vm_compute; reflexivity|]. split.
  { intros x w ins w' outs [Hx Ax] L E. apply Ok_inj in E. injection E as _ <-. apply S in Hx. members; try discriminate; reflexivity. }
  split; [intros; eexists; reflexivity|]. intros capture before w m. reflexivity.
Qed.
(** An external double port: process() copies float samples into it, so what the component
    behind it reads depends on the former contents of the pool. *)
Definition wide_objects : objects :=
  Objects (fun p => Input) (fun _ => 1) (fun _ => 1) (fun p => p)
          (fun _ => Input) (fun _ => 0) (fun _ => 0) (fun _ => 0) (fun _ => 0) (fun _ _ => Some true) (fun c => c =? 0) (fun c => c =? 0).
Definition wide_flow : comp := Composite 0 [0] [] [Atomic 1 [1] []] [AConn 0 1 [0] [0]] [].
Definition recording (c : nat) (w : list (list nat)) (ins : list (list nat)) : res (list (list nat) * list (list nat)) := Ok (ins, []).
Theorem C33_external_type_refuted : exists o root fl behaviour (capture before : nat * nat -> list nat) (m m' : memory nat) w r1 r2 w' r1' r2',
  NoDup (all_audio root) /\ NoDup (addresses root) /\ describes o root /\ new_addresses root ex_alloc
  /\ (forall s d, linked root s d -> a_type o (fst s) = a_type o (fst d) /\ a_type o (fst s) = 1)
  /\ construct o two_sizes 1 64 (fun l => l) ex_alloc (fun _ => true) root = Ok fl
  /\ well_behaved o two_sizes 1 root behaviour /\ (forall p, length (capture p) = two_sizes 0)
  /\ process o two_sizes 1 0 root fl behaviour 1 1 capture before ([[0]], m) = Ok (w : list (list nat), r1, r2)
  /\ process o two_sizes 1 0 root fl behaviour 1 1 capture before ([[0]], m') = Ok (w', r1', r2')
  /\ w <> w'.
Proof.
  assert (S : forall x, inside x wide_flow -> In x (subcomps wide_flow)) by (intros z; apply inside_subcomps). cbn in S.
  exists wide_objects, wide_flow. eexists. exists recording, (fun _ => [1; 2; 3; 4]), (fun _ => []), (fun _ => 0), (fun _ => 9). do 6 eexists.
  split; [repeat constructor; cbn; intuition discriminate|]. split; [repeat constructor; cbn; intuition discriminate|]. split.
  { split; [|split; [|split]].
    - intros x p Hx Hp. apply S in Hx. members; cbn in Hp; members; reflexivity.
    - intros x p Hx Hp. apply S in Hx. members; cbn in Hp; members; reflexivity.
    - intros x Hx. apply S in Hx. members; reflexivity.
    - intros x Hx. apply S in Hx. members; cbn; split; intros H; try reflexivity; discriminate. }
  split.
  { constructor.
    - intros n m [] [] H; unfold new_port, ex_alloc in H; cbn in H; (split; [lia|]); try reflexivity; lia.
    - intros n m H. unfold new_comp, ex_alloc in H. cbn in H. lia.
    - intros n a H. assert (20 <= new_port ex_alloc n a) by (unfold new_port, ex_alloc; cbn; destruct a; lia). cbn -[new_port] in H. lia.
    - intros n H. unfold new_comp, ex_alloc in H. cbn in H. lia. }
  split; [intros; split; reflexivity|]. split; [vm_compute; reflexivity|]. split.
  { intros x w ins w' outs [Hx Ax] L E. apply Ok_inj in E. injection E as _ <-. apply S in Hx. members; try discriminate; reflexivity. }
  split; [reflexivity|]. split; [reflexivity|]. split; [reflexivity|]. vm_compute. discriminate.
Qed.

Print Assumptions C33_flat_partial.
Print Assumptions C33_layout_independent_partial.
Print Assumptions C33_hierarchy_partial.
Print Assumptions C33_atomic_partial.
Print Assumptions C33_double_routing_refuted.
Print Assumptions C33_external_type_refuted.
