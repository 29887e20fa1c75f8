(** Specification of the execution of one block (C33), without buffers, schedules and routing
    components: a valuation assigns a block of bytes to every send channel of the flow, and every
    component maps the values of the channels that drive its inputs to the values of its outputs. *)
From Verif Require Import Base FlowModel FlowProofs FlowTree FlowProps SchedProps LayoutModel LayoutProps.

Section Spec.
  Context {W B : Type}.
  Variable o : objects.
  Variable root : comp.
  (** [source s d]: send channel [s] drives receive channel [d] *)
  Variable source : channel -> channel -> Prop.
  Variable behaviour : nat -> W -> list (list B) -> res (W * list (list B)).

  Definition atomic_in (x : comp) : Prop := inside x root /\ is_composite x = false.
  Definition port_channels_of (d : direction) (ports : list nat) : list channel :=
    flat_map (fun p => map (fun k => (p, k)) (seq 0 (a_width o p)))
             (filter (fun p => Bool.eqb (is_input (a_dir o p)) (is_input d)) ports).
  Definition inputs (x : comp) : list channel := port_channels_of Input (comp_audio x).
  Definition outputs (x : comp) : list channel := port_channels_of Output (comp_audio x).

  Definition valuation := channel -> list B.
  (** value arriving at channel [d] *)
  Definition arrives (V : valuation) (d : channel) (v : list B) : Prop := exists s, source s d /\ v = V s.
  (** the components in [order] run one after the other in the world [w], each with the values of
      the channels that drive it, and the values of its outputs are what it computes *)
  Inductive executes (V : valuation) : W -> list comp -> W -> Prop :=
  | executes_nil w : executes V w [] w
  | executes_cons w x rest ins w1 w2 :
      Forall2 (arrives V) (inputs x) ins ->
      behaviour (comp_id x) w ins = Ok (w1, map V (outputs x)) ->
      executes V w1 rest w2 -> executes V w (x :: rest) w2.
  (** some component of [order] does not complete: [r] is what its process method does *)
  Definition fails (V : valuation) (w : W) (order : list comp) (failure : res (W * list (list B)) -> Prop) : Prop :=
    exists l1 x l2 w1 ins, order = l1 ++ x :: l2 /\ executes V w l1 w1 /\ Forall2 (arrives V) (inputs x) ins
      /\ failure (behaviour (comp_id x) w1 ins).

  (** all atomic components once, each after those it depends on *)
  Definition dependency_order (feeds : nat -> nat -> Prop) (order : list comp) : Prop :=
    NoDup (map comp_id order) /\ (forall x, In x order <-> atomic_in x)
    /\ forall l1 x l2, order = l1 ++ x :: l2 -> forall y, atomic_in y -> feeds (comp_id y) (comp_id x) -> In y l1.
End Spec.
Arguments valuation : clear implicits.

(** *** Flows *)
(** A flat table of connections [conns] (and of parameter connections [params]) for the hierarchy
    [root]: connections lead from outputs of atomic components and external inputs to inputs of
    atomic components and external outputs; nothing is left unconnected. *)
Record closed_flow (o : objects) (root : comp) (conns : amap) (params : pmap) : Prop := {
  c_composite : is_composite root = true;
  c_describes : describes o root;
  c_addresses : NoDup (addresses root);
  c_ports : NoDup (all_audio root);
  c_senders : forall s d, In (s, d) conns -> exists x, inside x root /\ In (fst s) (comp_audio x)
    /\ ((is_composite x = false /\ a_dir o (fst s) = Output) \/ (x = root /\ a_dir o (fst s) = Input));
  c_receivers : forall s d, In (s, d) conns -> exists x, inside x root /\ In (fst d) (comp_audio x)
    /\ ((is_composite x = false /\ a_dir o (fst d) = Input) \/ (x = root /\ a_dir o (fst d) = Output));
  c_inputs : forall x d, atomic_in root x -> In d (inputs o x) -> exists s, In (s, d) conns;
  c_outputs : forall x c, atomic_in root x -> In c (outputs o x) -> sends conns (fst c);
  c_external : external_connected o (comp_audio root) conns;
  c_params : forall s d, In (d, s) params ->
    (q_owner o s = comp_id root \/ atom root (q_owner o s)) /\ (q_owner o d = comp_id root \/ atom root (q_owner o d)) }.
(** the components inserted by the layout are new objects *)
Definition new_comp (alloc : nat -> nat * nat * nat) (n : nat) : nat := fst (fst (alloc n)).
Record new_addresses (root : comp) (alloc : nat -> nat * nat * nat) : Prop := {
  n_ports : forall n m a b, new_port alloc n a = new_port alloc m b -> n = m /\ a = b;
  n_comps : forall n m, new_comp alloc n = new_comp alloc m -> n = m;
  n_fresh_port : forall n a, ~ In (new_port alloc n a) (all_audio root);
  n_fresh_comp : forall n, ~ In (new_comp alloc n) (addresses root) }.

(** *** One block *)
Section Block_spec.
  Context {W B : Type}.
  Variables (o : objects) (type_size : nat -> nat) (block : nat) (root : comp).
  (** external channels, in the order of the ports *)
  Definition external (d : direction) : list channel := port_channels_of o d (comp_audio root).
  (** components fill their output channels *)
  Definition well_behaved (behaviour : nat -> W -> list (list B) -> res (W * list (list B))) : Prop :=
    forall x w ins w' outs, atomic_in root x ->
      map (@length B) ins = map (fun c => block * type_size (a_type o (fst c))) (inputs o x) ->
      behaviour (comp_id x) w ins = Ok (w', outs) ->
      map (@length B) outs = map (fun c => block * type_size (a_type o (fst c))) (outputs o x).
  (** the sample at position [i] of a block of samples of [size] bytes *)
  Definition slice (size i : nat) (v : list B) : list B := firstn size (skipn (i * size) v).
  Definition positions_differ (pos : nat -> nat -> nat * nat) (channels : nat) : Prop :=
    forall n i n' i', n < channels -> i < block -> n' < channels -> i' < block -> pos n i = pos n' i' -> n = n' /\ i = i'.

  Variable source : channel -> channel -> Prop.
  Variable size : nat.
  (** external inputs carry the captured samples *)
  Definition captured (pos : nat -> nat -> nat * nat) (capture : nat * nat -> list B) (V : valuation B) : Prop :=
    forall n c, nth_error (external Input) n = Some c -> V c = flat_map (fun i => capture (pos n i)) (seq 0 block).
  (** the playback samples are those that arrive at the external outputs; nothing else is written *)
  Definition played (pos : nat -> nat -> nat * nat) (before after : nat * nat -> list B) (V : valuation B) : Prop :=
    (forall n d, nth_error (external Output) n = Some d ->
       exists v, arrives source V d v /\ forall i, i < block -> after (pos n i) = slice size i v)
    /\ forall p, (forall n i, n < length (external Output) -> i < block -> p <> pos n i) -> after p = before p.
  Definition block_outcome (behaviour : nat -> W -> list (list B) -> res (W * list (list B))) (order : list comp)
             (failure : exn) (cpos ppos : nat -> nat -> nat * nat) (capture before : nat * nat -> list B) (w : W)
             {M : Type} (result : res (W * M * (nat * nat -> list B))) : Prop :=
    match result with
    | Ok (w', _, after) => exists V, executes o source behaviour V w order w'
        /\ captured cpos capture V /\ played ppos before after V
    | Throw e => e = failure /\ exists V, captured cpos capture V
        /\ fails o source behaviour V w order (fun r => exists e', r = Throw e')
    | UB => exists V, captured cpos capture V /\ fails o source behaviour V w order (fun r => r = UB)
    end.
End Block_spec.

(** *** Independent components *)
(** [a] and then [b] has the same effect as [b] and then [a] *)
Definition commute {W B : Type} (behaviour : nat -> W -> list (list B) -> res (W * list (list B))) (a b : nat) : Prop :=
  forall w ina inb wa outa w' outb, behaviour a w ina = Ok (wa, outa) -> behaviour b wa inb = Ok (w', outb) ->
    exists wb, behaviour b w inb = Ok (wb, outb) /\ behaviour a wb ina = Ok (w', outa).
Definition independent {W B : Type} (root : comp) (feeds : nat -> nat -> Prop)
           (behaviour : nat -> W -> list (list B) -> res (W * list (list B))) : Prop :=
  forall x z, atomic_in root x -> atomic_in root z -> comp_id x <> comp_id z ->
    ~ feeds (comp_id x) (comp_id z) -> ~ feeds (comp_id z) (comp_id x) -> commute behaviour (comp_id x) (comp_id z).
