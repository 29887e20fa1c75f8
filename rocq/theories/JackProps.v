(** C71: the Jack interface. *)
From Coq Require Import String.
From Verif Require Import Base Memory IndexSequenceModel ChannelListModel JackModel JackProofs.
Local Open Scope res_scope.
Local Open Scope nat_scope.

(** A configuration is accepted exactly if the entries together give as many names as there
    are channels; these are then the port names in the order of the entries.  With automatic
    connection the same holds for the external ports, where an entry without "externalport"
    takes over the one of the entries before. *)
Theorem C71_ports : forall num d auto tree names exts,
  load_ports num d auto tree = Ok (names, exts)
  <-> (exists nss, Forall2 (entry_gives num d) (entries_of tree) nss /\ names = concat nss) /\ length names = num
      /\ (if auto_of auto tree
          then (exists xss, Forall2 (ext_gives num d) (inherited None (entries_of tree)) xss /\ exts = concat xss)
               /\ length exts = num
          else exts = repeat [] num).
Proof. exact load_ports_ok. Qed.

(** Without any configuration the ports are numbered from 0 and all different, the external
    ports are those of "system", numbered from 1. *)
Theorem C71_default : forall num d auto,
  exists names exts, load_ports num d auto None = Ok (names, exts)
    /\ NoDup names
    /\ (forall i, i < num -> nth_error names i = Some (port_type d ++ print_size (Z.of_nat i)))
    /\ (forall i, i < num -> nth_error exts i =
          Some (if auto then txt "system:" ++ ext_type d ++ print_size (Z.of_nat (i + 1)) else [])).
Proof.
  intros num d auto.
  exists (map (fun n => port_type d ++ print_size (Z.of_nat n)) (seq 0 num)),
    (if auto then map (fun n => txt "system" ++ txt ":" ++ ext_type d ++ print_size (Z.of_nat n)) (seq 1 num) else repeat [] num).
  assert (Nth : forall i, i < num -> nth_error (seq 0 num) i = Some i).
  { intros i L. rewrite nth_error_nth' with (d := 0) by (rewrite seq_length; exact L). rewrite seq_nth by exact L. reflexivity. }
  split; [|split; [apply numbered_nodup|split]].
  - apply load_ports_ok. split; [|split].
    + exists [map (fun n => port_type d ++ print_size (Z.of_nat n)) (seq 0 num)]. split; [|cbn; rewrite app_nil_r; reflexivity].
      constructor; [apply Gives_default|constructor].
    + rewrite map_length, seq_length. reflexivity.
    + cbn [auto_of]. destruct auto; [|reflexivity]. split; [|rewrite map_length, seq_length; reflexivity].
      exists [map (fun n => txt "system" ++ txt ":" ++ ext_type d ++ print_size (Z.of_nat n)) (seq 1 num)].
      split; [|cbn [concat]; rewrite app_nil_r; reflexivity].
      constructor; [apply Ext_default|constructor].
  - intros i L. rewrite nth_error_map, (Nth i L). reflexivity.
  - intros i L. destruct auto.
    + rewrite <- seq_shift, map_map, nth_error_map, (Nth i L). cbn [option_map]. rewrite Nat.add_1_r. reflexivity.
    + apply nth_error_repeat. exact L.
Qed.

(** An entry that lacks the base name or the indices takes all channels: it is only accepted
    if all other entries are empty. *)
Theorem C71_unindexed : forall num d auto tree names exts l1 e l2,
  load_ports num d auto tree = Ok (names, exts) -> entries_of tree = l1 ++ e :: l2 ->
  p_base e = None \/ p_indices e = None ->
  entry_gives num d e names /\ forall e', In e' (l1 ++ l2) -> entry_gives num d e' [].
Proof.
  intros num d auto tree names exts l1 e l2 H Ee Hu. apply load_ports_ok in H as ((nss & Fa & En) & L & _).
  rewrite Ee in Fa. apply Forall2_app_inv_l in Fa as (a & b & Fa & Fb & Eab). inversion Fb as [|? ns ? b' Ge Fb' Q1 Q2]. subst b nss names.
  destruct (entry_gives_length num d e ns Ge) as (_ & Le). specialize (Le Hu).
  rewrite concat_app in L. cbn [concat] in L. rewrite !app_length in L.
  assert (G : forall l ll, Forall2 (entry_gives num d) l ll -> length (concat ll) = 0 -> forall e', In e' l -> entry_gives num d e' []).
  { induction 1 as [|x1 y l0 ll0 Hx Hl IH]; intros E e' I; [contradiction|]. cbn [concat] in E. rewrite app_length in E.
    destruct I as [I|I]; [subst x1; destruct y; [exact Hx|cbn in E; lia]|apply IH; [lia|exact I]]. }
  assert (Za : length (concat a) = 0) by lia. assert (Zb : length (concat b') = 0) by lia.
  rewrite concat_app. cbn [concat]. apply length_zero_iff_nil in Za as Za', Zb as Zb'. rewrite Za', Zb', app_nil_r. cbn [app].
  split; [exact Ge|]. intros e' I. apply in_app_or in I. destruct I as [I|I]; [exact (G _ _ Fa Za e' I)|exact (G _ _ Fb' Zb e' I)].
Qed.

(** Too many names: every surplus name is written behind the end of the vector before the
    numbers are compared, at least without automatic connection. *)
Theorem C71_overflow : forall num d auto tree nss, auto_of auto tree = false ->
  Forall2 (entry_gives num d) (entries_of tree) nss -> num < length (concat nss) ->
  load_ports num d auto tree = UB.
Proof. exact load_ports_overflow. Qed.
(** "A configuration with too many ports is rejected with an exception" *)
Theorem C71_overflow_refuted : exists num tree nss,
  Forall2 (entry_gives num Capture) (entries_of tree) nss /\ length (concat nss) <> num
  /\ load_ports num Capture false tree <> Throw InvalidArgument.
Proof.
  exists 2, (Some {| d_auto := None;
    d_ports := Some [{| p_base := Some (txt "l"); p_indices := Some (txt "0:1"); p_ext := None |};
                     {| p_base := Some (txt "r"); p_indices := Some (txt "7"); p_ext := None |}] |}),
    [[txt "l0"; txt "l1"]; [txt "r7"]].
  split; [|split; [cbn; lia|]].
  - constructor; [|constructor; [|constructor]].
    + apply (Gives_indexed 2 Capture (txt "l") (txt "0:1") [0%Z; 1%Z] None); [vm_compute; reflexivity|cbn; lia].
    + apply (Gives_indexed 2 Capture (txt "r") (txt "7") [7%Z] None); [vm_compute; reflexivity|cbn; lia].
  - vm_compute. discriminate.
Qed.

(** ** Constructor *)
(** Exact condition of success, and what the object then holds. *)
Theorem C71_construct : forall ncap nplay period c w k,
  fst (jack_new ncap nplay period c w) = Ok k
  <-> exists pc xc pp xp,
      let auto := or_else (c_auto c) false in
      load_ports ncap Capture auto (c_capture c) = Ok (pc, xc)
      /\ load_ports nplay Playback auto (c_playback c) = Ok (pp, xp)
      /\ NoDup pp
      /\ w = {| w_open := true; w_callbacks := true; w_buffer := true; w_rate := true |}
      /\ k = {| k_client := match c_client c with Some [] | None => txt "VISR" | Some n => n end;
                k_capture := pc; k_playback := pp; k_capture_ext := xc; k_playback_ext := xp;
                k_capture_auto := auto; k_playback_auto := auto; k_period := period |}.
Proof.
  intros ncap nplay period c w k. unfold jack_new.
  change (match c_auto c with Some b => b | None => false end) with (or_else (c_auto c) false).
  set (auto := or_else (c_auto c) false).
  replace (match c_client c with Some (a :: r) => a :: r | _ => txt "VISR" end)
    with (match c_client c with Some [] | None => txt "VISR" | Some n => n end)
    by (destruct (c_client c) as [[|a r]|]; reflexivity).
  split.
  - intros H. destruct (load_ports ncap Capture auto (c_capture c)) as [[pc xc]| |] eqn:E1; cbn [bind fst] in H; try discriminate.
    destruct (load_ports nplay Playback auto (c_playback c)) as [[pp xp]| |] eqn:E2; cbn [bind fst snd app] in H; try discriminate.
    destruct (has_duplicate pp) eqn:D; [discriminate|].
    destruct (length pc =? ncap); cbn [negb] in H; [|discriminate].
    destruct (length pp =? nplay); cbn [negb] in H; [|discriminate].
    destruct w as [[] [] [] []]; cbn [w_open w_callbacks w_buffer w_rate negb fst] in H; try discriminate.
    injection H as H. exists pc, xc, pp, xp. cbv zeta. repeat split; try assumption.
    + apply has_duplicate_spec. exact D.
    + symmetry. exact H.
  - intros (pc & xc & pp & xp & E1 & E2 & N & -> & ->). cbv zeta. fold auto in E1, E2. rewrite E1, E2. cbn [bind fst snd app].
    apply has_duplicate_spec in N. rewrite N.
    apply load_ports_ok in E1 as (_ & L1 & _). apply load_ports_ok in E2 as (_ & L2 & _).
    rewrite L1, L2, !Nat.eqb_refl. reflexivity.
Qed.

(** After an exception of the constructor the server has a client exactly if it had been
    opened: nobody closes it then. *)
Theorem C71_leak : forall ncap nplay period c w e,
  jack_new ncap nplay period c w = (Throw e, true) <->
  (exists k, fst (jack_new ncap nplay period c {| w_open := true; w_callbacks := true; w_buffer := true; w_rate := true |}) = Ok k)
  /\ e = LogicError /\ w_open w = true /\ (w_callbacks w && w_buffer w && w_rate w = false).
Proof.
  intros ncap nplay period c w e. unfold jack_new.
  match goal with |- context [match ?m with Ok _ => _ | Throw _ => _ | UB => _ end] => destruct m as [k|e'|] end.
  - cbn [w_open w_callbacks w_buffer w_rate negb fst]. destruct w as [[] [] [] []]; cbn [w_open w_callbacks w_buffer w_rate negb andb];
      (split; [intros H; first [discriminate H|injection H as H; subst e; split; [exists k; reflexivity|repeat split]]
              |intros (_ & -> & H1 & H2); first [discriminate H1|discriminate H2|reflexivity]]).
  - cbn [fst]. split; [intros H; discriminate|intros ((k & H) & _); discriminate].
  - cbn [fst]. split; [intros H; discriminate|intros ((k & H) & _); discriminate].
Qed.
(** "A failed constructor leaves no client on the server" *)
Theorem C71_leak_refuted : exists c w e, jack_new 1 1 64 c w = (Throw e, true).
Proof.
  exists {| c_client := None; c_auto := None; c_capture := None; c_playback := None |},
    {| w_open := true; w_callbacks := true; w_buffer := true; w_rate := false |}, LogicError.
  vm_compute. reflexivity.
Qed.

(** ** Life cycle *)
Section Life.
  Context {A F W : Type}.
  Variable feq : F -> F -> bool.
  Variable call : F -> W -> list (list A) -> W * res (list (list A)).
  Variable other_output other_input : text -> bool.
  Variable accepts : nat -> text -> bool.
  Variable k : jack.
  Hypothesis others : forall n, other_output (full_name k n) = false /\ other_input (full_name k n) = false.

  Notation step := (jack_step (A := A) (W := W) feq call other_output other_input accepts k).

  (** Whatever calls are made, the interface behaves as the abstract life cycle: in each block
      the callback gets the samples of the capture ports in the order of the channels and its
      results go to the playback ports in the order of the channels; start succeeds exactly
      if the server accepts all names. *)
  Theorem C71_run : forall ok os w, (ok = true <-> startable accepts k) ->
    outputs step (initial k, w) os = outputs (spec_step feq call k ok) (spec_initial, w) os
    /\ snd (final step (initial k, w) os) = snd (final (spec_step feq call k ok) (spec_initial, w) os).
  Proof.
    intros ok os w Hok.
    destruct (run_matches feq call other_output other_input accepts k others ok Hok os (initial k) spec_initial w
               (initial_matches k)) as (H1 & _ & H3).
    split; assumption.
  Qed.

  (** The server has all ports of the configuration while the interface is started, and none
      otherwise; without colons in the names and loops back to the own ports the connections
      are those of the configuration to existing ports. *)
  Theorem C71_server : forall ok os w, (ok = true <-> startable accepts k) ->
    let v := t_server (fst (final step (initial k, w) os)) in
    let p := fst (final (spec_step feq call k ok) (spec_initial, w) os) in
    map (fun q => (o_dir q, o_name q)) (v_ports v) = (if p_init p then wanted k else [])
    /\ v_active v = p_active p /\ (p_init p = true -> p_active p = true)
    /\ (p_init p = false -> v_links v = [])
    /\ (plain k -> p_init p = true -> v_links v = wanted_links other_output other_input k).
  Proof.
    intros ok os w Hok. cbv zeta.
    destruct (run_matches feq call other_output other_input accepts k others ok Hok os (initial k) spec_initial w
               (initial_matches k)) as (_ & ((T & R) & Ei & Ea & _) & _).
    set (s := fst (final step (initial k, w) os)) in *.
    set (p := fst (final (spec_step feq call k ok) (spec_initial, w) os)) in *.
    assert (Mk : forall l i, map (fun q => (o_dir q, o_name q)) (mkports i l) = l).
    { induction l as [|[d n] r IH]; intros i; cbn; [reflexivity|]. rewrite IH. reflexivity. }
    rewrite Ei in R.
    split; [|split; [exact Ea|split; [|split]]].
    - destruct (p_init p).
      + destruct R as (_ & i & Ep & _). rewrite Ep. apply Mk.
      + destruct R as (Ep & _). rewrite Ep. reflexivity.
    - intros Hp. rewrite Hp in R. rewrite <- Ea. exact (proj1 R).
    - intros Hp. rewrite Hp in R. apply (tied_no_ports k); [exact T|exact (proj1 R)].
    - intros Hp Hi. apply (run_linked feq call other_output other_input accepts k others ok Hok Hp os (initial k) spec_initial w).
      + apply initial_matches.
      + intros Q. discriminate Q.
      + fold s. rewrite Ei. exact Hi.
  Qed.

  (** A start that fails at a port leaves the client active, and stop() then does nothing. *)
  Theorem C71_failed_start : forall w fails, ~ startable accepts k ->
    let s := final step (initial k, w) [Start false; Stop fails] in
    outputs step (initial k, w) [Start false; Stop fails] = [Returned (Throw RuntimeError); Returned (Ok tt)]
    /\ v_active (t_server (fst s)) = true.
  Proof.
    intros w fails N. cbv zeta.
    assert (Hok : false = true <-> startable accepts k) by (split; [discriminate|intros H; contradiction]).
    destruct (run_matches feq call other_output other_input accepts k others false Hok [Start false; Stop fails] (initial k) spec_initial w
               (initial_matches k)) as (H1 & (_ & _ & H2 & _) & _).
    rewrite H1, H2. split; reflexivity.
  Qed.
End Life.

(** The registered name is the part behind the first colon. *)
Theorem C71_short_name : forall a b, ~ In ":"%char a ->
  short_name (a ++ ":"%char :: b) = b /\ short_name a = a.
Proof.
  intros a b N. unfold short_name.
  assert (G : after_colon (a ++ ":"%char :: b) = Some b /\ after_colon a = None).
  { induction a as [|c r IH]; [split; reflexivity|]. cbn [app after_colon].
    destruct (Ascii.eqb_spec c ":") as [E|E].
    - exfalso. apply N. left. exact E.
    - apply IH. intros I. apply N. right. exact I. }
  destruct G as (G1 & G2). rewrite G1, G2. split; reflexivity.
Qed.

(** ** A concrete interface and what the code does not do *)
Definition all_well : answers := {| w_open := true; w_callbacks := true; w_buffer := true; w_rate := true |}.
(** the callback 0 swaps the channels, any other throws *)
Definition demo_call (f : nat) (w : nat) (xs : list (list Z)) : nat * res (list (list Z)) :=
  (S w, match f with 0 => Ok (rev xs) | _ => Throw LogicError end).
Definition demo_out (t : text) : bool := text_eqb t (txt "system:capture_1") || text_eqb t (txt "mic:a3").
Definition demo_in (t : text) : bool := text_eqb t (txt "system:playback_2").
Definition demo_conf : jackconf :=
  {| c_client := Some (txt "ab"); c_auto := Some true;
     c_capture := Some {| d_auto := None; d_ports := Some
       [{| p_base := Some (txt "l"); p_indices := Some (txt "4"); p_ext := Some {| x_client := None; x_name := None; x_indices := Some (txt "1") |} |};
        {| p_base := Some (txt "r"); p_indices := Some (txt "7"); p_ext := Some {| x_client := Some (txt "mic"); x_name := Some (txt "a"); x_indices := Some (txt "3") |} |}] |};
     c_playback := None |}.
Definition demo_jack : jack :=
  {| k_client := txt "ab"; k_capture := [txt "l4"; txt "r7"]; k_playback := [txt "out_0"; txt "out_1"];
     k_capture_ext := [txt "system:capture_1"; txt "mic:a3"];
     k_playback_ext := [txt "system:playback_1"; txt "system:playback_2"];
     k_capture_auto := true; k_playback_auto := true; k_period := 1 |}.
Example C71_construct_example : jack_new 2 2 1 demo_conf all_well = (Ok demo_jack, true).
Proof. vm_compute. reflexivity. Qed.

Lemma demo_others n : demo_out (full_name demo_jack n) = false /\ demo_in (full_name demo_jack n) = false.
Proof.
  unfold demo_out, demo_in, full_name. cbn [k_client demo_jack list_ascii_of_string app].
  repeat match goal with |- context [text_eqb ?a ?b] => destruct (text_eqb_spec a b) as [E|_]; [discriminate E|] end.
  split; reflexivity.
Qed.
Lemma demo_startable : startable (fun _ _ => true) demo_jack.
Proof.
  split; [|reflexivity]. apply has_duplicate_spec. vm_compute. reflexivity.
Qed.
Lemma demo_plain : plain demo_jack.
Proof.
  split.
  - intros n H. cbn [k_capture k_playback demo_jack app In] in H.
    repeat (destruct H as [H|H]; [subst n; vm_compute; reflexivity|]). contradiction.
  - intros x n H. cbn [k_capture_ext k_playback_ext demo_jack app In] in H. unfold full_name.
    repeat (destruct H as [H|H]; [subst x; cbn; discriminate|]). contradiction.
Qed.
Definition demo_input (t : text) : list Z := if text_eqb t (txt "l4") then [5%Z] else [6%Z].
Definition demo_ops : list (op Z nat) :=
  [Process 1 demo_input; Register 0; Start false; Process 1 demo_input; Process 2 demo_input; Unregister 1;
   Register 1; Process 1 demo_input; Start true; Process 1 demo_input; Stop false; Start false].
Example C71_run_example :
  outputs (jack_step Nat.eqb demo_call demo_out demo_in (fun _ _ => true) demo_jack) (initial demo_jack, 0) demo_ops
  = [Quiet; Answered true; Returned (Ok tt); Played [(txt "out_0", [6%Z]); (txt "out_1", [5%Z])]; Code 1;
     Answered false; Answered true; Code 1; Returned (Throw RuntimeError); Code 0; Returned (Ok tt); Returned (Ok tt)].
Proof. vm_compute. reflexivity. Qed.
Example C71_server_example :
  v_links (t_server (fst (final (jack_step Nat.eqb demo_call demo_out demo_in (fun _ _ => true) demo_jack)
                            (initial demo_jack, 0) demo_ops)))
  = [(txt "system:capture_1", txt "ab:l4"); (txt "mic:a3", txt "ab:r7"); (txt "ab:out_1", txt "system:playback_2")].
Proof. vm_compute. reflexivity. Qed.

(** "The port names of an accepted configuration are unique": only those of the playback
    ports are compared.  With the same name for two ports every start fails. *)
Theorem C71_unique_refuted : exists c k,
  jack_new 2 1 64 c all_well = (Ok k, true) /\ ~ NoDup (k_capture k ++ k_playback k)
  /\ forall accepts, ~ startable accepts k.
Proof.
  exists {| c_client := None; c_auto := None;
     c_capture := Some {| d_auto := None; d_ports := Some
       [{| p_base := Some (txt "a"); p_indices := Some (txt "1,1"); p_ext := None |}] |};
     c_playback := None |},
   {| k_client := txt "VISR"; k_capture := [txt "a1"; txt "a1"]; k_playback := [txt "out_0"];
      k_capture_ext := [[]; []]; k_playback_ext := [[]]; k_capture_auto := false; k_playback_auto := false; k_period := 64 |}.
  split; [vm_compute; reflexivity|]. split.
  - intros N. apply has_duplicate_spec in N. vm_compute in N. discriminate N.
  - intros accepts (N & _). apply has_duplicate_spec in N. vm_compute in N. discriminate N.
Qed.

(** "The option autoconnect of a direction decides whether its ports are connected": only the
    global option does. *)
Theorem C71_autoconnect_refuted : exists c k,
  jack_new 1 1 1 c all_well = (Ok k, true)
  /\ option_map d_auto (c_capture c) = Some (Some true) /\ k_capture_ext k = [txt "system:capture_1"]
  /\ forall os, v_links (t_server (fst (final (jack_step Nat.eqb demo_call demo_out demo_in (fun _ _ => true) k)
                                              (initial k, 0) os))) = [].
Proof.
  set (c := {| c_client := None; c_auto := None;
     c_capture := Some {| d_auto := Some true; d_ports := None |}; c_playback := None |}).
  set (k := {| k_client := txt "VISR"; k_capture := [txt "in_0"]; k_playback := [txt "out_0"];
      k_capture_ext := [txt "system:capture_1"]; k_playback_ext := [[]]; k_capture_auto := false; k_playback_auto := false; k_period := 1 |}).
  exists c, k. split; [vm_compute; reflexivity|]. split; [reflexivity|]. split; [reflexivity|]. intros os.
  assert (Ot : forall n, demo_out (full_name k n) = false /\ demo_in (full_name k n) = false).
  { intros n. unfold demo_out, demo_in, full_name, k. cbn [k_client list_ascii_of_string app].
    repeat match goal with |- context [text_eqb ?a ?b] => destruct (text_eqb_spec a b) as [E|_]; [discriminate E|] end.
    split; reflexivity. }
  assert (St : startable (fun _ _ => true) k).
  { split; [|reflexivity]. apply has_duplicate_spec. vm_compute. reflexivity. }
  assert (Pl : plain k).
  { split.
    - intros n H. unfold k in H. cbn [k_capture k_playback app In] in H.
      repeat (destruct H as [H|H]; [subst n; vm_compute; reflexivity|]). contradiction.
    - intros x n H. unfold k in H. cbn [k_capture_ext k_playback_ext app In] in H. unfold full_name, k.
      repeat (destruct H as [H|H]; [subst x; cbn; discriminate|]). contradiction. }
  destruct (C71_server Nat.eqb demo_call demo_out demo_in (fun _ _ => true) k Ot true os 0) as (_ & _ & _ & H1 & H2).
  { split; [intros _; exact St|reflexivity]. }
  destruct (p_init _); [exact (H2 Pl eq_refl)|exact (H1 eq_refl)].
Qed.

(** "The external ports of an entry are those of its own description or the default": the
    second entry gets the port of the first. *)
Theorem C71_inherited_refuted : exists e1 e2 names x1 x2,
  load_ports 2 Capture true (Some {| d_auto := None; d_ports := Some [e1; e2] |}) = Ok (names, [x1; x2])
  /\ p_ext e2 = None /\ x1 = txt "mic:a3" /\ x2 = txt "mic:a3".
Proof.
  exists {| p_base := Some (txt "l"); p_indices := Some (txt "0"); p_ext := Some {| x_client := Some (txt "mic"); x_name := Some (txt "a"); x_indices := Some (txt "3") |} |},
    {| p_base := Some (txt "r"); p_indices := Some (txt "0"); p_ext := None |},
    [txt "l0"; txt "r0"], (txt "mic:a3"), (txt "mic:a3").
  repeat split; vm_compute; reflexivity.
Qed.

(** "Automatic connection connects the ports": a port whose name has a colon is registered
    under the rest of the name but connected under the whole name. *)
Theorem C71_colon_refuted : exists k w,
  k_capture_auto k = true /\ (forall x, In x (k_capture_ext k) -> demo_out x = true)
  /\ startable (fun _ _ => true) k
  /\ let s := fst (final (jack_step Nat.eqb demo_call demo_out demo_in (fun _ _ => true) k) (initial k, w) [Start false]) in
     t_init s = true /\ v_links (t_server s) = [].
Proof.
  exists {| k_client := txt "v"; k_capture := [txt "a:b"]; k_playback := [];
      k_capture_ext := [txt "mic:a3"]; k_playback_ext := []; k_capture_auto := true; k_playback_auto := true; k_period := 1 |}, 0.
  split; [reflexivity|]. split; [|split].
  - intros x [H|[]]. subst x. vm_compute. reflexivity.
  - split; [|reflexivity]. apply has_duplicate_spec. vm_compute. reflexivity.
  - vm_compute. split; reflexivity.
Qed.

(** "A failed start leaves the client inactive, or stop() makes it so" *)
Theorem C71_failed_start_refuted : exists (accepts : nat -> text -> bool) fails,
  let step := jack_step Nat.eqb demo_call demo_out demo_in accepts demo_jack in
  outputs step (initial demo_jack, 0) [Start false; Stop fails] = [Returned (Throw RuntimeError); Returned (Ok tt)]
  /\ v_active (t_server (fst (final step (initial demo_jack, 0) [Start false; Stop fails]))) = true.
Proof.
  exists (fun n _ => n <? 3), false. apply (C71_failed_start Nat.eqb demo_call demo_out demo_in _ demo_jack demo_others).
  intros (_ & H). specialize (H 3 _ eq_refl). discriminate H.
Qed.

(** "The destructor does not end the program": it does if deactivating fails. *)
Theorem C71_destroy_refuted : exists os : list (op Z nat),
  jack_destroy demo_jack true
    (fst (final (jack_step Nat.eqb demo_call demo_out demo_in (fun _ _ => true) demo_jack) (initial demo_jack, 0) os)) = false.
Proof. exists [Start false]. vm_compute. reflexivity. Qed.

Print Assumptions C71_ports.
Print Assumptions C71_default.
Print Assumptions C71_unindexed.
Print Assumptions C71_overflow.
Print Assumptions C71_overflow_refuted.
Print Assumptions C71_construct.
Print Assumptions C71_leak.
Print Assumptions C71_leak_refuted.
Print Assumptions C71_run.
Print Assumptions C71_server.
Print Assumptions C71_failed_start.
Print Assumptions C71_short_name.
Print Assumptions C71_unique_refuted.
Print Assumptions C71_autoconnect_refuted.
Print Assumptions C71_inherited_refuted.
Print Assumptions C71_colon_refuted.
Print Assumptions C71_failed_start_refuted.
Print Assumptions C71_destroy_refuted.
