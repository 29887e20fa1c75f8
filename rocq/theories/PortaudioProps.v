(** C70: the PortAudio interface passes blocks between the sound card and the signal flow. *)
From Coq Require Import String.
From Verif Require Import Base Memory CircularBufferModel CircularBufferProofs PortaudioModel PortaudioProofs.
Local Open Scope res_scope.

(** ** Layouts *)
(** Both layouts of the device memory keep all samples: the channels read back are those
    written, and an area of the right size is determined by its channels. *)
Theorem C70_layouts :
  forall {A : Type} (zero : A) interleaved n period,
  (forall ys, block_of n period ys ->
     area interleaved n period (device_memory zero interleaved n period ys)
     /\ channels zero n period (device_memory zero interleaved n period ys) = ys)
  /\ (forall m, area interleaved n period m ->
     block_of n period (channels zero n period m)
     /\ device_memory zero interleaved n period (channels zero n period m) = m).
Proof.
  intros A zero il n period. split.
  - intros ys B. assert (Ar := device_memory_area zero il n period ys B). split; [exact Ar|].
    destruct (channels_block zero il n period _ Ar) as [L Fo]. destruct B as [Ly Fy].
    apply nth_error_ext. intros c. destruct (Nat.lt_ge_cases c n) as [Hc|Hc].
    + destruct (nth_error_lt ys c ltac:(lia)) as [y Ey].
      destruct (nth_error_lt (channels zero n period (device_memory zero il n period ys)) c ltac:(lia)) as [x Ex].
      rewrite Ex, Ey. f_equal. rewrite Forall_forall in Fo, Fy.
      assert (G1 := Fo _ (nth_error_In _ _ Ex)). assert (G2 := Fy _ (nth_error_In _ _ Ey)).
      apply nth_error_ext. intros t. destruct (Nat.lt_ge_cases t period) as [Ht|Ht].
      * assert (H := channels_sample zero il n period _ c t Ar Hc Ht). rewrite Ex in H. rewrite H.
        rewrite (device_memory_sample zero il n period ys c t) by (try split; try apply Forall_forall; auto).
        now rewrite Ey.
      * rewrite !(proj2 (nth_error_None _ _)) by lia. reflexivity.
    + rewrite !(proj2 (nth_error_None _ _)) by lia. reflexivity.
  - intros m Ar. assert (B := channels_block zero il n period m Ar). split; [exact B|].
    apply (area_ext il n period); [now apply device_memory_area|exact Ar|].
    intros c t Hc Ht. rewrite (device_memory_sample zero il n period _ c t B Hc Ht).
    now apply (channels_sample zero il).
Qed.
(** ** Sample formats *)
(** A format by its meaning: signed, unsigned or floating point, and the number of bits *)
Inductive number_kind := Signed | Unsigned | Floating.
Definition format_meaning (f : format) : number_kind * string :=
  match f with
  | SInt8 => (Signed, "8") | UInt8 => (Unsigned, "8") | SInt16 => (Signed, "16") | UInt16 => (Unsigned, "16")
  | SInt24 => (Signed, "24") | UInt24 => (Unsigned, "24") | SInt32 => (Signed, "32") | UInt32 => (Unsigned, "32")
  | Float32 => (Floating, "32")
  end%string.
Definition pa_meaning (p : pa_format) : number_kind * string :=
  match p with
  | PaInt8 => (Signed, "8") | PaUInt8 => (Unsigned, "8") | PaInt16 => (Signed, "16")
  | PaInt24 => (Signed, "24") | PaInt32 => (Signed, "32") | PaFloat32 => (Floating, "32")
  end%string.
Definition format_text (m : number_kind * string) : string :=
  ((match fst m with Signed => "signedInt" | Unsigned => "unsignedInt" | Floating => "float" end)
   ++ snd m ++ "Bit")%string.
(** The names of the formats and their translation for PortAudio keep kind and width; a
    format is refused exactly if PortAudio has none of that kind and width. *)
Theorem C70_formats : forall name f il,
  (format_of name = Ok f <-> name = format_text (format_meaning f))
  /\ (forall p b, pa_format_of f il = Ok (p, b) -> pa_meaning p = format_meaning f /\ b = negb il)
  /\ (forall p, pa_meaning p = format_meaning f -> pa_format_of f il = Ok (p, negb il)).
Proof.
  intros name f il. split; [split|split].
  - unfold format_of, lookup, format_names. cbn [find fst snd].
    repeat match goal with |- context [String.eqb ?a name] =>
      destruct (String.eqb_spec a name) as [E|_]; [intros H; injection H as H; subst; reflexivity|] end.
    intros H. discriminate H.
  - intros ->. destruct f; reflexivity.
  - intros p b H. destruct f; cbn in H; try discriminate; injection H as H1 H2; subst; split; reflexivity.
  - intros p H. destruct f, p; cbn in H; try discriminate; reflexivity.
Qed.

Print Assumptions C70_layouts.

(** ** All sequences of calls *)
Section Spec.
  Context {A F W : Type} (zero : A) (feq : F -> F -> bool)
          (call : F -> W -> list (list A) -> W * res (list (list A)))
          (interleaved : bool) (cap play period : nat).
  (** What the user of the interface sees: the registered callback, the stream and the world
      of the callbacks. *)
  Definition spec_step (t : option F * stream * W) (o : op A F) : (option F * stream * W) * event A :=
    let '(cb, st, w) := t in
    match o with
    | Register f => ((Some f, st, w), Answered true)
    | Unregister f =>
        match cb with
        | Some g => if feq g f then ((None, st, w), Answered true) else (t, Answered false)
        | None => (t, Answered false)
        end
    | Start fails =>
        match st with
        | Stopped => if fails then (t, Returned (Throw RuntimeError)) else ((cb, Running, w), Returned (Ok tt))
        | Closed => (t, Returned UB)
        | _ => (t, Returned (Throw RuntimeError))
        end
    | Stop =>
        match st with
        | Running | Finished => ((cb, Closed, w), Returned (Ok tt))
        | Stopped => (t, Returned (Throw RuntimeError))
        | Closed => (t, Returned UB)
        end
    | Block input out =>
        match st, cb with
        | Running, None => (t, Played Continue out)
        | Running, Some f =>
            match call f w (channels zero cap period input) with
            | (w', Ok ys) => ((cb, st, w'), Played Continue (device_memory zero interleaved play period ys))
            | (w', Throw _) => ((cb, Finished, w'), Played Abort out)
            | (_, UB) => (t, Undefined)
            end
        | _, _ => (t, Quiet)
        end
    end.
End Spec.
Definition op_ok {A F} (interleaved : bool) (cap play period : nat) (o : op A F) : Prop :=
  match o with
  | Block input out => area interleaved cap period input /\ area interleaved play period out
  | _ => True
  end.

Lemma new_inv {A F} (zero : A) env cap play period rate al c (s : pa A F) : pa_new zero env cap play period rate al c = Ok s ->
  inv (next_aligned_size period al) s /\ a_cap s = cap /\ a_play s = play /\ a_period s = period
  /\ format_of (cf_format c) = Ok (a_format s) /\ a_interleaved s = cf_interleaved c
  /\ a_callback s = None /\ a_stream s = Stopped.
Proof.
  unfold pa_new. destruct (format_of (cf_format c)) as [f|e|] eqn:Ef; [|discriminate|discriminate]. cbn [bind].
  assert (E1 : map_res (area_at (cap + play) (next_aligned_size period al)) (seq 0 cap)
               = Ok (map (fun i => next_aligned_size period al * i) (seq 0 cap))).
  { apply map_res_forall2. apply forall2_seq; [now rewrite map_length, seq_length|]. intros i y E.
    assert (i < cap) by (rewrite <- (seq_length cap 0), <- (map_length (fun i => next_aligned_size period al * i)); apply nth_error_Some; congruence).
    rewrite ptr_nth in E by assumption. apply Some_inj in E. subst y. unfold area_at.
    destruct (Nat.leb_spec (cap + play) i); [lia|reflexivity]. }
  assert (E2 : map_res (fun i => area_at (cap + play) (next_aligned_size period al) (cap + i)) (seq 0 play)
               = Ok (map (fun i => next_aligned_size period al * (cap + i)) (seq 0 play))).
  { apply map_res_forall2. apply forall2_seq; [now rewrite map_length, seq_length|]. intros i y E.
    assert (i < play) by (rewrite <- (seq_length play 0), <- (map_length (fun i => next_aligned_size period al * (cap + i))); apply nth_error_Some; congruence).
    rewrite ptr_nth in E by assumption. apply Some_inj in E. subst y. unfold area_at.
    destruct (Nat.leb_spec (cap + play) (cap + i)); [lia|reflexivity]. }
  rewrite E1, E2. cbn [bind]. destruct (e_initialises env); [|discriminate]. cbn [negb].
  destruct (api_of (cf_api c)) as [a|e|]; [|discriminate|discriminate]. cbn [bind].
  destruct (match a with ApiDefault => e_default_host env | _ => e_host_index env a end) as [i|]; [|discriminate].
  destruct (nth_error (e_hosts env) i) as [h|]; [|discriminate].
  destruct (find_device (cf_in c) h cap true) as [di|e|]; [|discriminate|discriminate]. cbn [bind].
  destruct (find_device (cf_out c) h play false) as [do|e|]; [|discriminate|discriminate]. cbn [bind].
  destruct (pa_format_of f (cf_interleaved c)) as [p|e|]; [|discriminate|discriminate]. cbn [bind].
  destruct (e_supported env di cap do play p rate); [|discriminate]. cbn [negb].
  destruct (e_opens env); [|discriminate]. cbn [negb]. intros E. apply Ok_inj in E. subst s.
  cbn [a_cap a_play a_period a_format a_interleaved a_callback a_stream]. repeat split; auto; cbn [a_period a_storage].
  - destruct (Nat.eq_dec al 0) as [->|N]; [reflexivity|]. apply (next_aligned_spec period al N).
  - now rewrite repeat_length.
Qed.

(** Whatever calls are made in whatever order, with the format float32: the callback gets the
    captured channels and the device gets the channels it returns, in either layout; without
    a callback and after an exception the device memory is left as it is. *)
Theorem C70_run :
  forall {A F W : Type} (zero : A) (feq : F -> F -> bool)
         (call : F -> W -> list (list A) -> W * res (list (list A)))
         env cap play period rate alignment c s w ops,
  pa_new zero env cap play period rate alignment c = Ok s ->
  cf_format c = "float32Bit"%string ->
  (forall f w xs w' ys, block_of cap period xs -> call f w xs = (w', Ok ys) -> block_of play period ys) ->
  Forall (op_ok (cf_interleaved c) cap play period) ops ->
  outputs (pa_step feq call) (s, w) ops
  = outputs (spec_step zero feq call (cf_interleaved c) cap play period) (None, Stopped, w) ops.
Proof.
  intros A F W zero feq call env cap play period rate al c s w ops E Ef Law Wo.
  destruct (new_inv zero env cap play period rate al c s E) as (I & Ec & Ep & Eb & Fm & Il & Cb & St).
  rewrite Ef in Fm. change (Ok Float32 = Ok (a_format s)) in Fm. apply Ok_inj in Fm. symmetry in Fm.
  set (stride := next_aligned_size period al) in *. clearbody stride. clear E Ef.
  rewrite <- Il in *.
  assert (G : forall ops s w, inv stride s -> a_cap s = cap -> a_play s = play -> a_period s = period ->
     a_format s = Float32 -> Forall (op_ok (a_interleaved s) cap play period) ops ->
     outputs (pa_step feq call) (s, w) ops
     = outputs (spec_step zero feq call (a_interleaved s) cap play period) (a_callback s, a_stream s, w) ops).
  { clear s w I Ec Ep Eb Fm Il Cb St Wo ops. induction ops as [|o ops IH]; intros s w I Ec Ep Eb Fm Wo; [reflexivity|].
    assert (W1 := Forall_inv Wo). assert (W2 := Forall_inv_tail Wo). rewrite !outputs_cons.
    destruct o as [f|f|fails| |input out]; cbn [pa_step spec_step].
    - cbn [fst snd]. f_equal. apply (IH (pa_register f s) w); auto. destruct I; split; auto.
    - unfold pa_unregister. destruct (a_callback s) as [g|] eqn:Cb.
      + destruct (feq g f); cbn [fst snd]; f_equal.
        * apply (IH (with_callback s None) w); auto. destruct I; split; auto.
        * rewrite <- Cb. now apply IH.
      + cbn [fst snd]. f_equal. rewrite <- Cb. now apply IH.
    - unfold pa_start. destruct (a_stream s) eqn:St; try (cbn [fst snd]; f_equal; rewrite <- St; now apply IH).
      destruct fails; cbn [fst snd]; f_equal; [rewrite <- St; now apply IH|].
      apply (IH (with_stream s Running) w); auto. destruct I; split; auto.
    - unfold pa_stop. destruct (a_stream s) eqn:St; try (cbn [fst snd]; f_equal; rewrite <- St; now apply IH);
        cbn [fst snd]; f_equal; apply (IH (with_stream s Closed) w); auto; destruct I; split; auto.
    - destruct W1 as [Ai Ao].
      destruct (a_stream s) eqn:St;
        try (destruct (a_callback s) eqn:Cb; cbn [fst snd]; f_equal; rewrite <- St, <- Cb; now apply IH).
      destruct (a_callback s) as [f|] eqn:Cb.
      + subst cap play period.
        destruct (engine_ok zero call stride s w input out f I Fm Cb Ai Ao) as (m & Lm & E).
        { intros w' ys Ey. exact (Law f w _ w' ys (channels_block zero (a_interleaved s) _ _ _ Ai) Ey). }
        rewrite E. assert (Im := inv_storage stride s m I Lm).
        destruct (call f w (channels zero (a_cap s) (a_period s) input)) as [w' [ys|e|]]; cbn [fst snd]; f_equal.
        * rewrite <- St, <- Cb. now apply (IH (with_storage s m) w').
        * rewrite <- Cb. apply (IH (with_stream (with_storage s m) Finished) w'); auto. destruct Im; split; auto.
        * rewrite <- St, <- Cb. now apply IH.
      + unfold engine_callback. rewrite Cb. cbn [fst snd]. f_equal. rewrite <- St, <- Cb. now apply IH. }
  rewrite (G ops s w) by assumption. now rewrite Cb, St.
Qed.
Print Assumptions C70_run.

(** After an exception in the callback, and after stop(), nothing is played ever again: the
    interface has to be constructed anew. *)
Theorem C70_final :
  forall {A F W : Type} (feq : F -> F -> bool) (call : F -> W -> list (list A) -> W * res (list (list A))) ops s w,
  a_stream s = Finished \/ a_stream s = Closed ->
  Forall (fun e => match e with Played _ _ => False | Escaped _ => False | _ => True end)
    (outputs (pa_step feq call) (s, w) ops)
  /\ snd (final (pa_step feq call) (s, w) ops) = w.
Proof.
  intros A F W feq call. induction ops as [|o ops IH]; intros s w H; [split; [constructor|reflexivity]|].
  rewrite outputs_cons, final_cons.
  assert (G : exists s', fst (pa_step feq call (s, w) o) = (s', w) /\ (a_stream s' = Finished \/ a_stream s' = Closed)
    /\ match snd (pa_step feq call (s, w) o) with Played _ _ => False | Escaped _ => False | _ => True end).
  { destruct o as [f|f|fails| |input out]; cbn [pa_step].
    - eexists. split; [reflexivity|]. split; [exact H|exact Logic.I].
    - unfold pa_unregister. destruct (a_callback s) as [g|]; [destruct (feq g f)|]; cbn [fst snd];
        (eexists; split; [reflexivity|]; split; [exact H|exact Logic.I]).
    - unfold pa_start. destruct H as [H|H]; rewrite H; cbn [fst snd]; exists s; auto.
    - unfold pa_stop. destruct H as [H|H]; rewrite H; cbn [fst snd].
      + exists (with_stream s Closed). cbn [a_stream with_stream]. auto.
      + exists s. auto.
    - destruct H as [H|H]; rewrite H; cbn [fst snd]; exists s; auto. }
  destruct G as (s' & E & H' & Ev). rewrite E. destruct (IH s' w H') as [I1 I2]. split; [|exact I2].
  constructor; assumption.
Qed.
Print Assumptions C70_final.

(** With every other sample format the interface can be constructed (if the device supports
    it), but no callback is ever called; a block with a callback registered throws an exception
    out of the function called by PortAudio. *)
Theorem C70_other_formats :
  forall {A F W : Type} (zero : A) (feq : F -> F -> bool)
         (call : F -> W -> list (list A) -> W * res (list (list A)))
         env cap play period rate alignment c s w ops,
  pa_new zero env cap play period rate alignment c = Ok s ->
  cf_format c <> "float32Bit"%string ->
  let sw := final (pa_step feq call) (s, w) ops in
  snd sw = w
  /\ (a_stream (fst sw) = Running -> a_callback (fst sw) <> None -> forall input out,
      snd (pa_step feq call sw (Block input out)) = Escaped InvalidArgument).
Proof.
  intros A F W zero feq call env cap play period rate al c s w ops E N.
  destruct (new_inv zero env cap play period rate al c s E) as (_ & _ & _ & _ & Fm & _ & _ & _).
  assert (Nf : a_format s <> Float32).
  { intros H. rewrite H in Fm. unfold format_of, lookup, format_names in Fm. cbn [find fst snd] in Fm.
    repeat match type of Fm with context [String.eqb ?a ?b] => destruct (String.eqb a b) eqn:?; [try (cbn in Fm; discriminate)|] end;
      [|cbn in Fm; discriminate].
    apply N. symmetry. now apply String.eqb_eq. }
  clear E Fm N.
  assert (G : forall ops s, a_format s <> Float32 ->
    snd (final (pa_step feq call) (s, w) ops) = w /\ a_format (fst (final (pa_step feq call) (s, w) ops)) <> Float32).
  { clear ops s Nf. induction ops as [|o ops IH]; intros s Nf; [auto|]. rewrite final_cons.
    assert (X : exists s', fst (pa_step feq call (s, w) o) = (s', w) /\ a_format s' <> Float32).
    { destruct o as [f|f|fails| |input out]; cbn [pa_step].
      - eexists. split; [reflexivity|]. exact Nf.
      - unfold pa_unregister. destruct (a_callback s) as [g|]; [destruct (feq g f)|]; cbn [fst snd]; eauto.
      - unfold pa_start. destruct (a_stream s); cbn [fst snd]; eauto. destruct fails; cbn [fst snd]; eauto.
      - unfold pa_stop. destruct (a_stream s); cbn [fst snd]; eauto.
      - destruct (a_stream s); cbn [fst snd]; eauto. unfold engine_callback.
        destruct (a_callback s); [|cbn [fst snd]; eauto]. unfold transfer_capture.
        destruct (a_format s) eqn:Ff; cbn [bind fst snd]; try (exists s; split; [reflexivity|congruence]; fail).
        exists s. split; [|congruence]. congruence. }
    destruct X as (s' & E & N'). rewrite E. now apply IH. }
  destruct (G ops s Nf) as [G1 G2]. cbv zeta. split; [exact G1|].
  destruct (final (pa_step feq call) (s, w) ops) as [s' w']. cbn [fst snd] in *. intros R C input out.
  cbn [pa_step]. rewrite R. unfold engine_callback. destruct (a_callback s'); [|congruence].
  unfold transfer_capture. destruct (a_format s') eqn:Ff; cbn [bind]; try reflexivity; congruence.
Qed.
Print Assumptions C70_other_formats.

(** ** Construction *)
Definition begins_with (name start : string) : Prop := exists rest, name = (start ++ rest)%string.
Lemma prefix_iff start name : String.prefix start name = true <-> begins_with name start.
Proof.
  revert name. induction start as [|a start IH]; intros name; cbn [String.prefix].
  - destruct name; (split; [intros _; eexists; reflexivity|reflexivity]).
  - destruct name as [|b name]; cbn [String.prefix].
    + split; [discriminate|intros [r E]; discriminate].
    + destruct (Ascii.ascii_dec a b) as [->|N].
      * rewrite IH. split; intros [r E].
        -- exists r. cbn. now f_equal.
        -- exists r. cbn in E. congruence.
      * split; [discriminate|]. intros [r E]. cbn in E. congruence.
Qed.
(** The device is the first one whose name the requested name begins with, or the default
    device for the empty name; it must have enough channels. *)
Definition chosen (h : host) (input : bool) (name : string) (d : option device) : Prop :=
  match name with
  | EmptyString => d = if input then h_default_in h else h_default_out h
  | _ => match d with
         | Some d => exists l1 l2, h_devices h = l1 ++ d :: l2 /\ begins_with name (d_name d)
                     /\ Forall (fun d => ~ begins_with name (d_name d)) l1
         | None => Forall (fun d => ~ begins_with name (d_name d)) (h_devices h)
         end
  end.
Lemma find_first {B} (p : B -> bool) l : match find p l with
  | Some x => exists l1 l2, l = l1 ++ x :: l2 /\ p x = true /\ Forall (fun x => p x <> true) l1
  | None => Forall (fun x => p x <> true) l end.
Proof.
  induction l as [|y l IH]; cbn [find]; [constructor|]. destruct (p y) eqn:E.
  - exists [], l. auto.
  - destruct (find p l) as [x|].
    + destruct IH as (l1 & l2 & -> & Px & Fo). exists (y :: l1), l2. repeat split; auto. constructor; congruence.
    + constructor; [congruence|exact IH].
Qed.
Theorem C70_device :
  forall name h min input,
  exists d, chosen h input name d
  /\ (forall d', chosen h input name d' -> d' = d)
  /\ find_device name h min input
     = match d with
       | None => Throw InvalidArgument
       | Some d => if channels_of input d <? min then Throw RuntimeError else Ok d
       end.
Proof.
  intros name h min input. destruct name as [|a name].
  - eexists. split; [reflexivity|]. split; [auto|]. reflexivity.
  - exists (find (fun d => String.prefix (d_name d) (String a name)) (h_devices h)). cbn [chosen].
    assert (X := find_first (fun d => String.prefix (d_name d) (String a name)) (h_devices h)).
    assert (Q : forall l, Forall (fun x => String.prefix (d_name x) (String a name) <> true) l <->
                          Forall (fun d => ~ begins_with (String a name) (d_name d)) l).
    { intros l. split; intros H; eapply Forall_impl; try exact H; cbv beta; intros d Hd; now rewrite prefix_iff in *. }
    split; [|split].
    + destruct (find _ _) as [d|].
      * destruct X as (l1 & l2 & E & P & Fo). exists l1, l2. rewrite prefix_iff in P. rewrite Q in Fo. auto.
      * now apply Q.
    + intros d' Hd. destruct d' as [d'|].
      * destruct Hd as (l1 & l2 & E & P & Fo). rewrite E. clear E X. apply prefix_iff in P. apply Q in Fo.
        symmetry. induction l1 as [|y l1 IH]; cbn [app find]; [now rewrite P|].
        assert (F1 := Forall_inv Fo). cbv beta in F1. destruct (String.prefix (d_name y) (String a name)); [easy|].
        apply IH. exact (Forall_inv_tail Fo).
      * apply Q in Hd. destruct (find _ _) as [d|]; [|reflexivity].
        destruct X as (l1 & l2 & E & P & Fo). rewrite E in Hd. apply Forall_app in Hd as [_ Hd].
        now apply Forall_inv in Hd.
    + unfold find_device. change (String.eqb (String a name) EmptyString) with false. cbv iota. reflexivity.
Qed.
Print Assumptions C70_device.

(** "Find a device index with a given name and direction" (216-223): a device with exactly the
    requested name and enough channels in that direction is missed if a device with the
    beginning of that name comes first, or one with the same name for the other direction. *)
Theorem C70_device_refuted :
  (exists h d, In d (h_devices h) /\ d_name d = "USB Audio"%string /\ 2 <= channels_of true d
     /\ exists d', find_device "USB Audio" h 2 true = Ok d' /\ d_name d' = "USB"%string)
  /\ (exists h d, In d (h_devices h) /\ d_name d = "USB Audio"%string /\ 2 <= channels_of true d
     /\ find_device "USB Audio" h 2 true = Throw RuntimeError).
Proof.
  split.
  - exists (Host [Device "USB" 2 2; Device "USB Audio" 2 2] None None), (Device "USB Audio" 2 2).
    repeat split; cbn; auto. eexists. split; reflexivity.
  - exists (Host [Device "USB Audio" 0 8; Device "USB Audio" 2 0] None None), (Device "USB Audio" 2 0).
    repeat split; cbn; auto.
Qed.
Print Assumptions C70_device_refuted.

(** The constructor succeeds exactly for a known format and host API, devices with enough
    channels, and a format supported by PortAudio and by both devices. *)
Definition accepted (env : environment) (cap play rate : nat) (c : config) : Prop :=
  e_initialises env = true /\ e_opens env = true /\
  exists f a i h di do p,
    In (cf_format c, f) format_names
    /\ In (cf_api c, a) api_names
    /\ Some i = (match a with ApiDefault => e_default_host env | _ => e_host_index env a end)
    /\ nth_error (e_hosts env) i = Some h
    /\ chosen h true (cf_in c) (Some di) /\ cap <= d_in di
    /\ chosen h false (cf_out c) (Some do) /\ play <= d_out do
    /\ In (f, p) [(SInt8, PaInt8); (UInt8, PaUInt8); (SInt16, PaInt16); (SInt24, PaInt24);
                  (SInt32, PaInt32); (Float32, PaFloat32)]
    /\ e_supported env di cap do play (p, negb (cf_interleaved c)) rate = true.
Lemma find_device_ok name h min input d :
  find_device name h min input = Ok d <-> chosen h input name (Some d) /\ min <= channels_of input d.
Proof.
  destruct (C70_device name h min input) as (o & Ch & Un & E). rewrite E. split.
  - destruct o as [d0|]; [|discriminate]. destruct (Nat.ltb_spec (channels_of input d0) min); [discriminate|].
    intros X. apply Ok_inj in X. subst d0. auto.
  - intros [H1 H2]. rewrite <- (Un _ H1). destruct (Nat.ltb_spec (channels_of input d) min); [lia|reflexivity].
Qed.
Lemma lookup_ok {V} (t : list (string * V)) k v : NoDup (map fst t) -> (lookup t k = Some v <-> In (k, v) t).
Proof.
  intros ND. unfold lookup. induction t as [|[k' v'] t IH]; cbn [find]; [split; [discriminate|easy]|].
  cbn [fst]. apply NoDup_cons_iff in ND as [N ND]. destruct (String.eqb_spec k' k) as [->|Nk]; cbn [snd].
  - split; [intros E; left; congruence|]. intros [E|H]; [congruence|]. exfalso. apply N. now apply (in_map fst) in H.
  - rewrite (IH ND). split; [now right|]. intros [E|H]; [congruence|exact H].
Qed.
Lemma distinct_names : NoDup (map fst format_names) /\ NoDup (map fst api_names).
Proof. split; repeat (constructor; [cbn; intuition discriminate|]); constructor. Qed.
Theorem C70_construct :
  forall {A F : Type} (zero : A) env cap play period rate alignment c,
  (exists s : pa A F, pa_new zero env cap play period rate alignment c = Ok s)
  <-> accepted env cap play rate c.
Proof.
  intros A F zero env cap play period rate al c. destruct distinct_names as [D1 D2].
  unfold accepted. split.
  - intros [s E]. revert E. unfold pa_new. unfold format_of at 1.
    destruct (lookup format_names (cf_format c)) as [f|] eqn:Ef; [|discriminate]. cbn [bind].
    destruct (map_res _ (seq 0 cap)) as [cp|e|]; [|discriminate|discriminate]. cbn [bind].
    destruct (map_res _ (seq 0 play)) as [pp|e|]; [|discriminate|discriminate]. cbn [bind].
    destruct (e_initialises env); [|discriminate]. cbn [negb]. unfold api_of.
    destruct (lookup api_names (cf_api c)) as [a|] eqn:Ea; [|discriminate]. cbn [bind].
    destruct (match a with ApiDefault => e_default_host env | _ => e_host_index env a end) as [i|] eqn:Ei; [|discriminate].
    destruct (nth_error (e_hosts env) i) as [h|] eqn:Eh; [|discriminate].
    destruct (find_device (cf_in c) h cap true) as [di|e|] eqn:Edi; [|discriminate|discriminate]. cbn [bind].
    destruct (find_device (cf_out c) h play false) as [do|e|] eqn:Edo; [|discriminate|discriminate]. cbn [bind].
    destruct (pa_format_of f (cf_interleaved c)) as [[p il]|e|] eqn:Ep; [|discriminate|discriminate]. cbn [bind].
    destruct (e_supported env di cap do play (p, il) rate) eqn:Es; [|discriminate]. cbn [negb].
    destruct (e_opens env); [|discriminate]. intros _. split; [reflexivity|]. split; [reflexivity|].
    apply find_device_ok in Edi as [C1 C2]. apply find_device_ok in Edo as [C3 C4].
    exists f, a, i, h, di, do, p. rewrite (lookup_ok _ _ _ D1) in Ef. rewrite (lookup_ok _ _ _ D2) in Ea.
    assert (Hp : In (f, p) [(SInt8, PaInt8); (UInt8, PaUInt8); (SInt16, PaInt16); (SInt24, PaInt24);
                  (SInt32, PaInt32); (Float32, PaFloat32)] /\ il = negb (cf_interleaved c)).
    { unfold pa_format_of in Ep. destruct f; cbn [bind] in Ep; try discriminate;
        apply Ok_inj in Ep; apply pair_equal_spec in Ep as [<- <-]; (split; [cbn; tauto|reflexivity]). }
    destruct Hp as [Hp ->]. repeat split; auto.
  - intros (H1 & H2 & f & a & i & h & di & do & p & Hf & Ha & Hi & Hh & C1 & C2 & C3 & C4 & Hp & Hs).
    rewrite <- (lookup_ok _ _ _ D1) in Hf. rewrite <- (lookup_ok _ _ _ D2) in Ha.
    unfold pa_new, format_of, api_of. rewrite Hf. cbn [bind].
    destruct (map_res_ok (area_at (cap + play) (next_aligned_size period al)) (seq 0 cap)) as (cp & Ec & _).
    { intros x Hx. apply in_seq in Hx. unfold area_at. destruct (Nat.leb_spec (cap + play) x); [lia|eauto]. }
    destruct (map_res_ok (fun i => area_at (cap + play) (next_aligned_size period al) (cap + i)) (seq 0 play)) as (pp & Epp & _).
    { intros x Hx. apply in_seq in Hx. unfold area_at. destruct (Nat.leb_spec (cap + play) (cap + x)); [lia|eauto]. }
    rewrite Ec, Epp. cbn [bind]. rewrite H1. cbn [negb]. rewrite Ha. cbn [bind]. rewrite <- Hi, Hh.
    rewrite (proj2 (find_device_ok (cf_in c) h cap true di) (conj C1 C2)).
    rewrite (proj2 (find_device_ok (cf_out c) h play false do) (conj C3 C4)). cbn [bind].
    assert (Ep : pa_format_of f (cf_interleaved c) = Ok (p, negb (cf_interleaved c))).
    { cbn [In] in Hp. unfold pa_format_of.
      repeat (destruct Hp as [Hp|Hp]; [apply pair_equal_spec in Hp as [<- <-]; reflexivity|]). destruct Hp. }
    rewrite Ep. cbn [bind]. rewrite Hs. cbn [negb]. rewrite H2. cbn [negb]. eauto.
Qed.
Print Assumptions C70_construct.

(** PortAudio supports no stream with zero channels, so playback without capture (and vice
    versa) is impossible: the constructor always opens both directions. *)
Theorem C70_one_direction_refuted :
  forall {A F : Type} (zero : A) env cap play period rate alignment c,
  (forall di do n f r, e_supported env di 0 do n f r = false) ->
  (forall di do n f r, e_supported env di n do 0 f r = false) ->
  cap = 0 \/ play = 0 ->
  forall s : pa A F, pa_new zero env cap play period rate alignment c <> Ok s.
Proof.
  intros A F zero env cap play period rate al c H1 H2 H s E.
  assert (X : accepted env cap play rate c) by (rewrite <- (C70_construct (F := F) zero env cap play period rate al c); eauto).
  destruct X as (_ & _ & f & a & i & h & di & do & p & _ & _ & _ & _ & _ & _ & _ & _ & _ & Hs).
  destruct H as [-> | ->]; [rewrite H1 in Hs|rewrite H2 in Hs]; discriminate.
Qed.
Print Assumptions C70_one_direction_refuted.

(** ** A concrete run *)
(** One device with two inputs and two outputs; the callback with number k plays its world
    (a block counter) on the first channel and k times the input on the second, and throws in
    the third block. *)
Definition env70 : environment :=
  Env true [Host [Device "Card" 2 2] (Some (Device "Card" 2 2)) (Some (Device "Card" 2 2))] (Some 0)
    (fun _ => None) (fun _ n _ m _ _ => (0 <? n) && (0 <? m)) true.
Definition call70 (k w : nat) (xs : list (list nat)) : nat * res (list (list nat)) :=
  if w =? 2 then (w, Throw RuntimeError)
  else (S w, Ok [map (fun _ => w) (nth 0 xs []); map (Nat.mul k) (nth 0 xs [])]).
Definition ops70 : list (op nat nat) :=
  [ Start false; Block (Flat [1; 2; 3]) (Flat [9; 9; 9; 9; 9; 9]);
    Register 2; Block (Flat [1; 2; 3]) (Flat [9; 9; 9; 9; 9; 9]); Register 5; Unregister 2;
    Block (Flat [4; 5; 6]) (Flat [9; 9; 9; 9; 9; 9]); Block (Flat [4; 5; 6]) (Flat [9; 9; 9; 9; 9; 9]);
    Block (Flat [7; 8; 9]) (Flat [9; 9; 9; 9; 9; 9]); Start false; Stop; Start false ].
Example C70_example :
  exists s, pa_new 0 env70 1 2 3 48000 4 (Config "float32Bit" true "default" "Card 1" "") = Ok s
  /\ length (a_storage s) = 12
  /\ outputs (pa_step Nat.eqb call70) (s, 0) ops70
     = [ Returned (Ok tt); Played Continue (Flat [9; 9; 9; 9; 9; 9]);
         Answered true; Played Continue (Flat [0; 2; 0; 4; 0; 6]); Answered true; Answered false;
         Played Continue (Flat [1; 20; 1; 25; 1; 30]); Played Abort (Flat [9; 9; 9; 9; 9; 9]);
         Quiet; Returned (Throw RuntimeError); Returned (Ok tt); Returned UB ]
  /\ Forall (op_ok true 1 2 3) ops70
  /\ (forall f w xs w' ys, block_of 1 3 xs -> call70 f w xs = (w', Ok ys) -> block_of 2 3 ys).
Proof.
  eexists. split; [reflexivity|]. split; [reflexivity|]. split; [vm_compute; reflexivity|]. split.
  - repeat constructor.
  - intros f w xs w' ys [L Fo] E. unfold call70 in E. destruct (w =? 2); [discriminate|].
    apply pair_equal_spec in E as [_ E]. apply Ok_inj in E. subst ys.
    destruct xs as [|x [|]]; try discriminate. apply Forall_inv in Fo. cbn [nth].
    split; [reflexivity|]. repeat constructor; now rewrite map_length.
Qed.

(** start() after stop() uses the closed stream. *)
Theorem C70_restart_refuted :
  forall {A F : Type} (zero : A) env cap play period rate alignment c (s : pa A F),
  pa_new zero env cap play period rate alignment c = Ok s ->
  let s1 := snd (pa_stop (snd (pa_start false s))) in
  fst (pa_start false s) = Ok tt /\ fst (pa_stop (snd (pa_start false s))) = Ok tt
  /\ fst (pa_start false s1) = UB.
Proof.
  intros A F zero env cap play period rate al c s E.
  destruct (new_inv zero env cap play period rate al c s E) as (_ & _ & _ & _ & _ & _ & _ & St).
  cbv zeta. unfold pa_start, pa_stop. rewrite St. cbn. auto.
Qed.
Print Assumptions C70_restart_refuted.

(** A format other than float32 is accepted by the constructor. *)
Example C70_format_example :
  exists s : pa nat nat, pa_new 0 env70 1 2 3 48000 4 (Config "signedInt16Bit" false "default" "" "") = Ok s.
Proof. eexists. reflexivity. Qed.
Print Assumptions C70_formats.
