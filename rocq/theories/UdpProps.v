(** Properties C37 (asynchronous UDP sending) and C38 (UDP reception). *)
From Verif Require Import Base UdpModel.

(** The messages enqueued by a history. *)
Fixpoint enqueued (es : list sevent) : list msg :=
  match es with
  | [] => []
  | SEnqueue m :: es' => m :: enqueued es'
  | _ :: es' => enqueued es'
  end.
(** What a C string carries of a message: the longest prefix without NUL. *)
Definition carries (m c : msg) : Prop :=
  exists rest, m = c ++ rest /\ ~ In 0 c /\ (rest = [] \/ exists r, rest = 0 :: r).

Lemma c_string_carries m : carries m (c_string m).
Proof.
  induction m as [|[|c] m IH].
  - exists []. cbn. auto.
  - exists (0 :: m). cbn. split; [reflexivity|]. split; [tauto|]. right. eauto.
  - destruct IH as (r & E & N & T). exists r. cbn. rewrite <- E.
    split; [reflexivity|]. split; [|assumption]. intros [?|?]; [discriminate|contradiction].
Qed.
Lemma c_string_id m : ~ In 0 m -> c_string m = m.
Proof.
  induction m as [|[|c] m IH]; cbn; intros H; [reflexivity| |].
  - exfalso. apply H. now left.
  - rewrite IH; [reflexivity|]. intros I. apply H. now right.
Qed.

(** The invariant: an operation is outstanding exactly while the deque is non-empty, it
    points to the front element, and wire, deque and port queue together hold the
    messages in order. *)
Inductive sinv (ms : list msg) (s : sender) : Prop := SInv
  (todo : list msg)
  (si_ops : match s_buf s with
            | [] => s_ops s = [] /\ todo = []
            | m :: rest =>
                (s_ops s = [SendOp (s_popped s) None] /\ todo = m :: rest) \/
                (s_ops s = [SendOp (s_popped s) (Some (length m))] /\ todo = rest)
            end)
  (si_all : s_wire s ++ todo ++ map c_string (s_in s) = map c_string ms).

Lemma s_step_inv ms s e :
  sinv ms s -> s_dead s = false ->
  exists s', s_step s e = Ok s' /\
    sinv (ms ++ match e with SEnqueue m => [m] | _ => [] end) s'.
Proof.
  intros [todo Ho Ha] Hd. unfold s_step. rewrite Hd. destruct s as [inq buf pop ops wire dead].
  cbn -[Nat.ltb Nat.sub] in *. destruct e as [m| |k|k|k].
  - eexists; split; [reflexivity|]. exists todo; cbn; [exact Ho|].
    rewrite !map_app. cbn. rewrite <- Ha, <- !app_assoc. reflexivity.
  - eexists; split; [reflexivity|]. rewrite app_nil_r. unfold s_process. cbn.
    destruct buf as [|m rest]; cbn.
    + destruct Ho as [-> ->]. cbn in Ha. exists (map c_string inq); cbn.
      * destruct inq; cbn; auto.
      * now rewrite app_nil_r.
    + exists (todo ++ map c_string inq); cbn.
      * destruct Ho as [[-> ->]|[-> ->]]; auto.
      * rewrite app_nil_r. exact Ha.
  - rewrite app_nil_r. destruct buf as [|m rest].
    + destruct Ho as [-> ->]. destruct k; cbn; eexists; (split; [reflexivity|]); exists []; cbn; auto.
    + destruct Ho as [[-> ->]|[-> ->]]; destruct k as [|[|k]]; cbn -[Nat.ltb Nat.sub];
        try (eexists; split; [reflexivity|]; exists (m :: rest); cbn; now auto);
        try (eexists; split; [reflexivity|]; exists rest; cbn; now auto).
      rewrite Nat.ltb_irrefl, Nat.sub_diag. cbn. eexists; split; [reflexivity|].
      exists rest; cbn; auto. rewrite <- app_assoc. exact Ha.
  - rewrite app_nil_r. destruct buf as [|m rest].
    + destruct Ho as [-> ->]. destruct k; cbn; eexists; (split; [reflexivity|]); exists []; cbn; auto.
    + destruct Ho as [[-> ->]|[-> ->]]; destruct k as [|[|k]]; cbn -[Nat.ltb Nat.sub];
        try (eexists; split; [reflexivity|]; exists (m :: rest); cbn; now auto);
        try (eexists; split; [reflexivity|]; exists rest; cbn; now auto).
      unfold s_handler; cbn. rewrite Nat.eqb_refl. eexists; split; [reflexivity|].
      exists rest; cbn; auto. destruct rest; cbn; auto.
  - rewrite app_nil_r.
    assert (I : sinv ms (Sender inq buf pop ops wire dead)) by (exists todo; cbn; auto).
    destruct (nth_error ops k); eexists; (split; [reflexivity|]); [|exact I].
    exists todo; cbn; auto.
Qed.

Lemma s_dead_stays es : forall s, s_dead s = true -> s_run s es = Ok s.
Proof.
  induction es as [|e es IH]; intros s H; cbn; [reflexivity|].
  unfold s_step. rewrite H. now apply IH.
Qed.

Lemma s_run_inv es : forall ms s,
  sinv ms s -> s_dead s = false ->
  exists s', s_run s es = Ok s' /\
    exists k, sinv (ms ++ firstn k (enqueued es)) s' /\
      (s_dead s' = false -> k = length (enqueued es)).
Proof.
  induction es as [|e es IH]; intros ms s I D; cbn [s_run].
  - exists s. split; [reflexivity|]. exists 0. cbn. rewrite app_nil_r. auto.
  - destruct (s_step_inv ms s e I D) as (s1 & -> & I1).
    destruct (s_dead s1) eqn:D1.
    + rewrite s_dead_stays by assumption. exists s1. split; [reflexivity|].
      exists (match e with SEnqueue _ => 1 | _ => 0 end). split; [|congruence].
      destruct e; cbn in *; exact I1.
    + destruct (IH _ _ I1 D1) as (s' & -> & k & I' & K).
      exists s'. split; [reflexivity|].
      exists (match e with SEnqueue _ => S k | _ => k end).
      destruct e; cbn in *; rewrite <- ?app_assoc in I'; rewrite ?app_nil_r in I'; cbn in I'; split; auto;
        intros H; rewrite ?(K H); reflexivity.
Qed.

(** C37.  For every interleaving of the arrival of messages, process() calls,
    transmissions, completion handlers and network errors: nothing undefined happens
    (no operation outlives the characters it points to), at most one send operation is
    outstanding, and the datagrams handed to the network are, in order and without
    repetition, the C strings of the first messages enqueued.  Without network error no
    message is lost: whenever nothing is outstanding and the port queue is empty, every
    message has been transmitted. *)
Theorem C37_in_order : forall es,
  exists s, s_run s_init es = Ok s
  /\ length (s_ops s) <= 1
  /\ (exists k, Forall2 carries (firstn k (enqueued es)) (s_wire s))
  /\ (s_dead s = false -> s_ops s = [] -> s_in s = [] ->
      Forall2 carries (enqueued es) (s_wire s))
  /\ (s_dead s = false -> (s_ops s = [] <-> s_buf s = [])).
Proof.
  intros es.
  assert (I0 : sinv [] s_init) by (exists []; cbn; auto).
  destruct (s_run_inv es [] s_init I0 eq_refl) as (s & E & k & [todo Ho Ha] & K).
  cbn [app] in *. exists s. split; [exact E|].
  assert (F : forall l, Forall2 carries l (map c_string l)).
  { induction l; cbn; constructor; auto using c_string_carries. }
  assert (Fn : forall n l l', Forall2 carries l l' -> Forall2 carries (firstn n l) (firstn n l')).
  { induction n; intros l l' H; cbn; [constructor|]. destruct H; constructor; auto. }
  split; [|split; [|split]].
  - destruct (s_buf s) as [|m rest]; [destruct Ho as [-> _]; cbn; lia|].
    destruct Ho as [[-> _]|[-> _]]; cbn; lia.
  - exists (Nat.min (length (s_wire s)) k). rewrite <- firstn_firstn.
    replace (s_wire s) with (firstn (length (s_wire s)) (map c_string (firstn k (enqueued es)))) at 2.
    + apply Fn, F.
    + rewrite <- Ha, firstn_app, Nat.sub_diag, firstn_O, app_nil_r. apply firstn_all.
  - intros D Hops Hin. rewrite (K D), firstn_all in Ha. rewrite Hin in Ha. cbn in Ha.
    assert (todo = []) as ->.
    { destruct (s_buf s) as [|m rest]; [apply Ho|].
      destruct Ho as [[H _]|[H _]]; rewrite H in Hops; discriminate. }
    rewrite !app_nil_r in Ha. rewrite Ha. apply F.
  - intros _. destruct (s_buf s) as [|m rest]; [destruct Ho as [-> _]; tauto|].
    destruct Ho as [[-> _]|[-> _]]; split; discriminate.
Qed.
Print Assumptions C37_in_order.

(** Without embedded NUL characters the datagrams are the messages themselves. *)
Theorem C37_exact : forall es s,
  (forall m, In m (enqueued es) -> ~ In 0 m) ->
  s_run s_init es = Ok s ->
  exists rest, enqueued es = s_wire s ++ rest.
Proof.
  intros es s Hn E.
  assert (I0 : sinv [] s_init) by (exists []; cbn; auto).
  destruct (s_run_inv es [] s_init I0 eq_refl) as (s' & E' & k & [todo Ho Ha] & K).
  rewrite E in E'. apply Ok_inj in E'. subst s'. cbn [app] in Ha.
  assert (M : map c_string (firstn k (enqueued es)) = firstn k (enqueued es)).
  { assert (G : forall m, In m (firstn k (enqueued es)) -> ~ In 0 m).
    { intros m H. apply Hn. rewrite <- (firstn_skipn k). apply in_or_app. now left. }
    revert G. generalize (firstn k (enqueued es)). induction l; cbn; intros G; [reflexivity|].
    rewrite c_string_id, IHl; auto. }
  rewrite M in Ha. exists (todo ++ map c_string (s_in s) ++ skipn k (enqueued es)).
  rewrite <- (firstn_skipn k (enqueued es)) at 1. rewrite <- Ha, <- !app_assoc. reflexivity.
Qed.
Print Assumptions C37_exact.

(** The transmission does not get stuck: from any state reached without network error,
    one process() call and the completion of the outstanding operations transmit
    everything. *)
Lemma s_run_app es1 : forall es2 s,
  s_run s (es1 ++ es2) = match s_run s es1 with Ok s' => s_run s' es2 | Throw x => Throw x | UB => UB end.
Proof.
  induction es1 as [|e es1 IH]; intros es2 s; cbn; [reflexivity|].
  destruct (s_step s e); auto.
Qed.
Definition finish (n : nat) : list sevent := concat (repeat [STransmit 0; SComplete 0] n).
Lemma finish_drains : forall n ms s, sinv ms s -> s_dead s = false -> s_in s = [] ->
  length (s_buf s) = n ->
  exists s', s_run s (finish n) = Ok s' /\ s_ops s' = [] /\ s_in s' = [] /\ s_dead s' = false.
Proof.
  induction n as [|n IH]; intros ms s I D Hi Hl.
  - exists s. destruct I as [todo Ho _]. destruct (s_buf s); [|discriminate].
    destruct Ho. cbn. auto.
  - assert (H : exists s1, s_run s [STransmit 0; SComplete 0] = Ok s1 /\ sinv ms s1 /\
      s_dead s1 = false /\ s_in s1 = [] /\ length (s_buf s1) = n).
    { destruct (s_step_inv ms s (STransmit 0) I D) as (s1 & E1 & I1).
      rewrite app_nil_r in I1.
      assert (D1 : s_dead s1 = false /\ s_in s1 = [] /\ s_buf s1 = s_buf s /\
        s_ops s1 = [SendOp (s_popped s1) (Some (length (hd [] (s_buf s))))]).
      { destruct I as [todo Ho _]. destruct s as [inq buf pop ops wire dead]. cbn -[Nat.ltb Nat.sub] in *.
        subst inq dead. destruct buf as [|m rest]; [discriminate|].
        unfold s_step in E1. cbn -[Nat.ltb Nat.sub] in E1.
        destruct Ho as [[-> ->]|[-> ->]]; cbn -[Nat.ltb Nat.sub] in E1;
          rewrite ?Nat.ltb_irrefl, ?Nat.sub_diag in E1; cbn in E1; apply Ok_inj in E1;
          subst s1; cbn; auto. }
      destruct D1 as (D1 & Hi1 & Hb & Ho1).
      destruct (s_step_inv ms s1 (SComplete 0) I1 D1) as (s2 & E2 & I2).
      rewrite app_nil_r in I2. exists s2. cbn [s_run]. rewrite E1, E2.
      split; [reflexivity|]. split; [assumption|].
      unfold s_step in E2. rewrite D1, Ho1 in E2. cbn in E2. unfold s_handler in E2.
      rewrite Hb in E2. destruct (s_buf s) as [|m rest] eqn:Eb; [discriminate|].
      cbn in E2. rewrite Nat.eqb_refl in E2. apply Ok_inj in E2. subst s2. cbn.
      cbn in Hl. auto. }
    destruct H as (s1 & E1 & I1 & D1 & Hi1 & Hl1).
    destruct (IH ms s1 I1 D1 Hi1 Hl1) as (s' & E' & R). exists s'. split; [|exact R].
    change (finish (S n)) with ([STransmit 0; SComplete 0] ++ finish n).
    rewrite s_run_app, E1. exact E'.
Qed.
Theorem C37_drains : forall es s,
  s_run s_init es = Ok s -> s_dead s = false ->
  exists s', s_run s (SProcess :: finish (length (s_buf s) + length (s_in s))) = Ok s'
    /\ Forall2 carries (enqueued es) (s_wire s').
Proof.
  intros es s E D.
  assert (I0 : sinv [] s_init) by (exists []; cbn; auto).
  destruct (s_run_inv es [] s_init I0 eq_refl) as (s1 & E1 & k & I & K).
  rewrite E in E1. apply Ok_inj in E1. subst s1. cbn [app] in I.
  rewrite (K D), firstn_all in I.
  destruct (s_step_inv _ s SProcess I D) as (s1 & E1 & I1). rewrite app_nil_r in I1.
  cbn [s_run]. rewrite E1.
  assert (P : s_dead s1 = false /\ s_in s1 = [] /\
    length (s_buf s1) = length (s_buf s) + length (s_in s)).
  { unfold s_step in E1. rewrite D in E1. apply Ok_inj in E1. subst s1. cbn.
    rewrite app_length, map_length. auto. }
  destruct P as (D1 & Hi1 & Hl1).
  destruct (finish_drains _ _ s1 I1 D1 Hi1 Hl1) as (s' & E' & O' & I' & D').
  exists s'. split; [exact E'|].
  assert (R : s_run s_init (es ++ SProcess :: finish (length (s_buf s) + length (s_in s))) = Ok s').
  { rewrite s_run_app, E. cbn [s_run]. rewrite E1. exact E'. }
  destruct (C37_in_order (es ++ SProcess :: finish (length (s_buf s) + length (s_in s))))
    as (s'' & E'' & _ & _ & T & _).
  rewrite R in E''. apply Ok_inj in E''. subst s''. specialize (T D' O' I').
  replace (enqueued es) with (enqueued (es ++ SProcess :: finish (length (s_buf s) + length (s_in s)))); [exact T|].
  assert (F : forall n, enqueued (finish n) = []) by (induction n; cbn; auto).
  assert (A : forall l1 l2, enqueued (l1 ++ l2) = enqueued l1 ++ enqueued l2).
  { clear. induction l1 as [|[] l1 IH]; intros l2; cbn; rewrite ?IH; reflexivity. }
  rewrite A. cbn [enqueued]. rewrite F. apply app_nil_r.
Qed.
Print Assumptions C37_drains.

(** A message with an embedded NUL is cut: the asynchronous mode does not transmit the
    message that was enqueued (the synchronous mode does). *)
Theorem C37_embedded_nul_refuted : exists es s,
  s_run s_init es = Ok s /\ s_dead s = false /\ s_ops s = [] /\ s_in s = [] /\
  s_wire s <> enqueued es.
Proof.
  exists [SEnqueue [65; 0; 66]; SProcess; STransmit 0; SComplete 0].
  eexists. split; [vm_compute; reflexivity|]. repeat split. discriminate.
Qed.
Print Assumptions C37_embedded_nul_refuted.

(** Synchronous mode: one call transmits the queue in order up to the first failing
    send and removes exactly what was transmitted, unchanged. *)
Theorem C37_synchronous : forall send queue wire,
  let '(queue', wire', ok) := sync_process send 0 queue wire in
  (exists sent, queue = sent ++ queue' /\ wire' = wire ++ sent
    /\ (forall i, i < length sent -> send i = true)
    /\ (ok = false -> queue' <> [] /\ send (length sent) = false))
  /\ (ok = true -> queue' = []).
Proof.
  intros send queue wire.
  assert (G : forall queue wire i, let '(queue', wire', ok) := sync_process send i queue wire in
    (exists sent, queue = sent ++ queue' /\ wire' = wire ++ sent
      /\ (forall j, j < length sent -> send (i + j) = true)
      /\ (ok = false -> queue' <> [] /\ send (i + length sent) = false))
    /\ (ok = true -> queue' = [])).
  { clear. induction queue as [|m q IH]; intros wire i; cbn.
    - split; [|auto]. exists []. cbn. rewrite app_nil_r. repeat split; intros; try lia; discriminate.
    - destruct (send i) eqn:Es.
      + specialize (IH (wire ++ [m]) (S i)).
        destruct (sync_process send (S i) q (wire ++ [m])) as [[q' w'] ok].
        destruct IH as [(sent & -> & -> & H1 & H2) H3]. split; [|exact H3].
        exists (m :: sent). cbn. rewrite <- app_assoc. split; [reflexivity|]. split; [reflexivity|].
        replace (i + S (length sent)) with (S i + length sent) by lia. split; [|exact H2].
        intros [|j] Hj; [now rewrite Nat.add_0_r|]. replace (i + S j) with (S i + j) by lia. apply H1. lia.
      + split; [|discriminate]. exists []. cbn. rewrite app_nil_r, Nat.add_0_r.
        repeat split; try lia; auto. discriminate. }
  exact (G queue wire 0).
Qed.
Print Assumptions C37_synchronous.

(** Three messages; the second arrives while the first is being sent. *)
Definition ex_sends : list sevent :=
  [SEnqueue [1; 2]; SProcess; SEnqueue [3]; STransmit 0; SProcess; SComplete 0;
   SEnqueue [4]; STransmit 0; SComplete 0; SProcess; STransmit 0].
Example C37_example : exists s, s_run s_init ex_sends = Ok s /\
  s_wire s = [[1; 2]; [3]; [4]] /\ length (s_ops s) = 1 /\ s_dead s = false.
Proof. eexists. split; [vm_compute; reflexivity|]. repeat split. Qed.

(** ** C38 *)
Fixpoint arrivals (es : list revent) : list msg :=
  match es with
  | [] => []
  | RArrive m :: es' => m :: arrivals es'
  | _ :: es' => arrivals es'
  end.
Definition no_failure (e : revent) : Prop := match e with RFail _ => False | _ => True end.

Section C38.
  Variable maxLen : nat.
  Let cut (m : msg) := firstn maxLen m.

  (** the message held by the receive buffer *)
  Inductive rinv (ms : list msg) (r : receiver) : Prop := RInv
    (held : list msg)
    (ri_op : (r_ops r = [Armed] /\ held = []) \/
             (exists m, r_ops r = [Filled (length m)] /\ held = [m] /\
                firstn (length m) (r_mem r) = m))
    (ri_all : r_out r ++ r_buf r ++ held ++ map cut (r_os r) = map cut ms).

  Lemma r_step_inv ms r e : no_failure e -> rinv ms r ->
    rinv (ms ++ match e with RArrive m => [m] | _ => [] end) (r_step maxLen r e).
  Proof using.
    intros Hf [held Ho Ha]. destruct r as [os ops mem buf out]. cbn in *.
    destruct e as [m|k|k|k|]; cbn; try contradiction; rewrite ?app_nil_r.
    - exists held; cbn; auto. rewrite !map_app, <- Ha, <- !app_assoc. reflexivity.
    - destruct Ho as [[-> ->]|(m & -> & -> & Hm)]; destruct k as [|[|k]]; cbn;
        try (exists []; cbn; now auto);
        try (exists [m]; cbn; [right; exists m|]; now auto).
      destruct os as [|m os]; [exists []; cbn; auto|].
      exists [cut m]; cbn.
      + right. exists (cut m). repeat split. unfold cut.
        rewrite firstn_app, Nat.sub_diag, firstn_O, app_nil_r. apply firstn_all.
      + exact Ha.
    - destruct Ho as [[-> ->]|(m & -> & -> & Hm)]; destruct k as [|[|k]]; cbn;
        try (exists []; cbn; now auto);
        try (exists [m]; cbn; [right; exists m|]; now auto).
      exists []; cbn; auto. rewrite Hm, <- app_assoc. exact Ha.
    - exists held; cbn; auto. rewrite <- app_assoc. exact Ha.
  Qed.

  (** C38.  For every interleaving of arrivals, receive completions, handlers and
      process() calls (without receive errors) the messages forwarded are the datagrams in
      arrival order (cut to the buffer size), each exactly once; when nothing is waiting
      all of them have been forwarded, and there is always exactly one receive operation
      outstanding. *)
  Theorem C38_in_order : forall es, Forall no_failure es ->
    let r := r_run maxLen es in
    (exists k, r_out r = map (firstn maxLen) (firstn k (arrivals es)))
    /\ length (r_ops r) = 1
    /\ (r_os r = [] -> r_ops r = [Armed] -> r_buf r = [] ->
        r_out r = map (firstn maxLen) (arrivals es)).
  Proof using.
    intros es Hf r.
    assert (G : forall es ms r, Forall no_failure es -> rinv ms r ->
      rinv (ms ++ arrivals es) (fold_left (r_step maxLen) es r)).
    { clear. induction es as [|e es IH]; intros ms r Hf I; cbn; [now rewrite app_nil_r|].
      pose proof (IH _ _ (Forall_inv_tail Hf) (r_step_inv _ _ e (Forall_inv Hf) I)) as H.
      destruct e; cbn in *; rewrite <- ?app_assoc, ?app_nil_r in H; exact H. }
    assert (I0 : rinv [] r_init) by (exists []; cbn; auto).
    specialize (G es [] r_init Hf I0). cbn [app] in G.
    change (fold_left (r_step maxLen) es r_init) with r in G.
    destruct G as [held Ho Ha].
    split; [|split].
    - exists (length (r_out r)). rewrite <- firstn_map. fold cut. 
      change (map (firstn maxLen) (arrivals es)) with (map cut (arrivals es)).
      rewrite <- Ha, firstn_app, Nat.sub_diag, firstn_O, app_nil_r, firstn_all. reflexivity.
    - destruct Ho as [[-> _]|(m & -> & _)]; reflexivity.
    - intros H1 H2 H3. rewrite H1, H3 in Ha. cbn in Ha.
      destruct Ho as [[_ ->]|(m & H & _)]; [|congruence].
      cbn in Ha. rewrite app_nil_r in Ha. exact Ha.
  Qed.

  (** A failed receive operation is treated like a datagram: an empty message that was
      never sent is forwarded. *)
  Theorem C38_error_refuted : exists es,
    arrivals es = [] /\ r_out (r_run maxLen es) = [[]].
  Proof using. exists [RFail 0; RHandle 0; RProcess]. split; reflexivity. Qed.
End C38.
Print Assumptions C38_in_order.
Print Assumptions C38_error_refuted.

Definition ex_receives : list revent :=
  [RArrive [1; 2; 3]; RReceive 0; RArrive [4]; RProcess; RHandle 0; RReceive 0; RHandle 0;
   RArrive []; RProcess; RReceive 0; RHandle 0; RProcess].
Example C38_example : Forall no_failure ex_receives /\
  r_out (r_run 2 ex_receives) = [[1; 2]; [4]; []].
Proof. split; [repeat constructor|reflexivity]. Qed.
