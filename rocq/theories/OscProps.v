(** C86: reading OSC packets; C87: ScalarOscDecoder. *)
From Coq Require Import Ascii NArith Lia.
From Verif Require Import Base OscModel OscSpec OscProofs.
Local Open Scope res_scope.

(** Whatever bytes a packet consists of, no byte outside of it is read, and reading it comes to an end;
    the same holds for the arguments of the messages, except for blobs (see below). *)
Theorem C86_safe : forall d, exists r, init d = Ok r /\ forall m rd, In m (popped r) ->
  (exists v, popInt32 m rd = Ok v) /\ (exists v, popInt64 m rd = Ok v) /\ (exists v, popFloat m rd = Ok v)
  /\ (exists v, popDouble m rd = Ok v) /\ (exists v, popStr m rd = Ok v).
Proof.
  intros d. pose proof (init_sound d) as S. destruct (init d) as [[ms e]|x|]; try easy. exists (ms, e). split; [reflexivity|].
  intros m rd Hm. destruct S as [S1 S2]. destruct e as [e|]; [destruct Hm|]. cbn [popped] in Hm. destruct (S2 eq_refl) as [S3 _].
  rewrite Forall_forall in S1, S3. specialize (S1 m Hm). specialize (S3 m Hm).
  repeat split; first [now apply located_str | apply located_pod; auto].
Qed.

(** A message as it was sent: address, time and all arguments. *)
Definition delivers (m : message) (e : N * content) : Prop :=
  let args := c_args (snd e) in
  m_time m = fst e /\ m_address m = c_address (snd e) /\ m_tags m = map arg_tag args /\ arg m = Reader None 0
  /\ forall k, popInt32 m (Reader None k) = Ok (fetch int32_of 0%N args k) /\ popInt64 m (Reader None k) = Ok (fetch int64_of 0%N args k)
     /\ popFloat m (Reader None k) = Ok (fetch float_of 0%N args k) /\ popDouble m (Reader None k) = Ok (fetch double_of 0%N args k)
     /\ popStr m (Reader None k) = Ok (fetch (fun a => option_map Some (string_of a)) None args k)
     /\ popBlob m (Reader None k) = Ok (fetch (fun a => option_map Some (blob_of a)) None args k)
     /\ popBool m (Reader None k) = (let '(b, r) := fetch bool_of false args k in (b, Reader (r_err r) (k + 1))).
Lemma reads_delivers m e : reads m e -> (forall a, In a (c_args (snd e)) -> valid_arg a) -> delivers m e.
Proof.
  destruct e as [t c]. intros R V. cbn [snd] in V. unfold delivers. cbn [fst snd].
  assert (X := R). destruct X as (X1 & X2 & X3 & X4 & _). cbn [fst snd] in *.
  split; [exact X2|]. split; [exact X3|]. split; [exact X4|]. split; [unfold arg; now rewrite X1|]. intros k.
  split; [|split; [|split; [|split; [|split; [|split]]]]].
  - apply (popPod_reads m t c k _ 4 _ R V).
    + intros [[]| | | | | |] v; cbn; split; try discriminate; try (intros (_ & _ & Y); exact Y). intros [= <-]. auto.
    + intros [[]|n| | | | |] T W; try discriminate T. exists n. split; [reflexivity|exact W].
  - apply (popPod_reads m t c k _ 8 _ R V).
    + intros [[]| | | | | |] v; cbn; split; try discriminate; try (intros (_ & _ & Y); exact Y). intros [= <-]. auto.
    + intros [[]| |n| | | |] T W; try discriminate T. exists n. split; [reflexivity|exact W].
  - apply (popPod_reads m t c k _ 4 _ R V).
    + intros [[]| | | | | |] v; cbn; split; try discriminate; try (intros (_ & _ & Y); exact Y). intros [= <-]. auto.
    + intros [[]| | |n| | |] T W; try discriminate T. exists n. split; [reflexivity|exact W].
  - apply (popPod_reads m t c k _ 8 _ R V).
    + intros [[]| | | | | |] v; cbn; split; try discriminate; try (intros (_ & _ & Y); exact Y). intros [= <-]. auto.
    + intros [[]| | | |n| |] T W; try discriminate T. exists n. split; [reflexivity|exact W].
  - exact (popStr_reads m t c k R V).
  - exact (popBlob_reads m t c k R).
  - exact (popBool_reads m t c k R).
Qed.
Lemma messages_valid : forall p, valid p -> forall t e, In e (messages p t) -> forall a, In a (c_args (snd e)) -> valid_arg a.
Proof.
  fix IH 2. intros p V. destruct V as [|c V|t' f l Ht V]; intros t e H a Ha.
  - destruct H.
  - destruct H as [<-|[]]. now apply V.
  - cbn [messages] in H. apply in_app_or in H as [H|H].
    + destruct (V f (or_introl eq_refl)) as [Vf _]. exact (IH f Vf t' e H a Ha).
    + apply in_concat in H as (x & H1 & H2). apply in_map_iff in H1 as (q & <- & H1).
      destruct (V q (or_intror H1)) as [Vq _]. exact (IH q Vq t' e H2 a Ha).
Qed.
Lemma Forall2_delivers p ms : valid p -> Forall2 reads ms (messages p 1) -> Forall2 delivers ms (messages p 1).
Proof.
  intros V H. pose proof (messages_valid p V 1%N) as W. induction H as [|m e ms es R H IH]; [constructor|].
  constructor; [apply reads_delivers; [exact R|apply W; now left]|]. apply IH. intros x Hx. apply W. now right.
Qed.

(** Every valid packet is read, and its messages are obtained in order with address, time and arguments. *)
Theorem C86_delivers : forall p, valid p -> exists ms, init (encode p) = Ok (ms, None) /\ Forall2 delivers ms (messages p 1).
Proof. intros p V. destruct (init_complete p V) as (ms & E & R & _). exists ms. split; [exact E|now apply Forall2_delivers]. Qed.

(** Nothing else is accepted, provided that the blobs of the messages have a size. *)
Theorem C86_format : forall d,
  (exists p, valid p /\ d = encode p)
  <-> (exists ms, init d = Ok (ms, None)
        /\ Forall (fun m => Forall2 (fun t e => t = "b"%char -> snd e <> 0) (m_tags m) (m_arguments m)) ms).
Proof.
  intros d. split.
  - intros (p & V & ->). destruct (init_complete p V) as (ms & E & _ & Sn). now exists ms.
  - intros (ms & E & Sn). pose proof (init_sound d) as S. rewrite E in S. destruct S as [_ S]. destruct (S eq_refl) as [_ S'].
    destruct (S' Sn) as (p & V & Ed & _). now exists p.
Qed.
(** An encoding determines the messages. *)
Theorem C86_unique : forall p q, valid p -> valid q -> encode p = encode q -> map fst (messages p 1) = map fst (messages q 1)
  /\ map (fun e => c_address (snd e)) (messages p 1) = map (fun e => c_address (snd e)) (messages q 1)
  /\ map (fun e => map arg_tag (c_args (snd e))) (messages p 1) = map (fun e => map arg_tag (c_args (snd e))) (messages q 1).
Proof.
  intros p q Vp Vq E. destruct (C86_delivers p Vp) as (ms & E1 & D1). destruct (C86_delivers q Vq) as (ms' & E2 & D2).
  rewrite E, E2 in E1. injection E1 as ->.
  assert (X : forall l, Forall2 delivers ms l -> map m_time ms = map fst l /\ map m_address ms = map (fun e => c_address (snd e)) l
              /\ map m_tags ms = map (fun e => map arg_tag (c_args (snd e))) l).
  { clear. induction 1 as [|m e ms es (H1 & H2 & H3 & _) _ IH]; [auto|]. cbn [map]. rewrite H1, H2, H3. destruct IH as (-> & -> & ->). auto. }
  destruct (X _ D1) as (A1 & A2 & A3). destruct (X _ D2) as (B1 & B2 & B3). repeat split; congruence.
Qed.

(** the message "/a" with the integer 258 and the string "x", alone and in a bundle *)
Definition ex_content : content := Content ["/"; "a"]%char [AInt32 258; ABool true; AString ["x"]%char; ABlob ["y"; "z"]%char].
Definition ex_packet : packet := Bundle 7 (Single ex_content) [Nothing; Bundle 9 (Single (Content ["/"]%char [])) []].
Lemma ex_content_valid : valid_message ex_content.
Proof.
  split; [eexists; reflexivity|]. split; [intros [|[|[]]]; discriminate|].
  intros a [<-|[<-|[<-|[<-|[]]]]]; cbn; try exact I; try reflexivity. intros [|[]]; discriminate.
Qed.
Example ex_valid : valid ex_packet.
Proof.
  constructor; [reflexivity|]. intros q [<-|[<-|[<-|[]]]]; (split; [|reflexivity]).
  - constructor. exact ex_content_valid.
  - constructor.
  - constructor; [reflexivity|]. intros q [<-|[]]. split; [|reflexivity]. constructor.
    split; [eexists; reflexivity|]. split; [intros [|[]]; discriminate|intros a []].
Qed.
Example ex_reads : match init (encode ex_packet) with
  | Ok ([m; m'], None) => m_time m = 7%N /\ m_time m' = 9%N /\ popInt32 m (arg m) = Ok (258%N, Reader None 1)
      /\ popBlob m (Reader None 3) = Ok (Some ["y"; "z"]%char, Reader None 4) /\ popFloat m' (arg m') = Ok (0%N, Reader (Some NOT_ENOUGH_ARG) 0)
  | _ => False
  end.
Proof. vm_compute. repeat split. Qed.
(* a malformed message in a bundle discards the other messages, too *)
Example ex_malformed : exists r, init (bundle_marker ++ big_endian 8 1 ++ element (encode (Single ex_content)) ++ element ["x"; "y"; "z"; "w"]%char) = Ok r
  /\ popped r = [].
Proof. eexists. split; [vm_compute; reflexivity|reflexivity]. Qed.

(** An error stays: afterwards nothing is read. *)
Theorem C86_sticky : forall m x k, exists k',
  popInt32 m (Reader (Some x) k) = Ok (0%N, Reader (Some x) k) /\ popStr m (Reader (Some x) k) = Ok (None, Reader (Some x) k)
  /\ popBlob m (Reader (Some x) k) = Ok (None, Reader (Some x) k) /\ popBool m (Reader (Some x) k) = (false, Reader (Some x) k').
Proof.
  intros m x k. exists (k + 1).
  assert (P : forall tag, precheck m tag (Reader (Some x) k) = Reader (Some x) k) by (intros tag; unfold precheck; cbn; now destruct (_ <=? _)).
  unfold popInt32, popPod, popStr, popBlob. rewrite !P. cbn [r_err]. repeat split.
  unfold popBool. cbn. destruct (_ <=? _); reflexivity.
Qed.
Example ex_sticky : popInt32 (Message 1 [] ["i"%char] [(0, 4)] (big_endian 4 5) None) (Reader (Some TYPE_MISMATCH) 0) = Ok (0%N, Reader (Some TYPE_MISMATCH) 0).
Proof. reflexivity. Qed.

(** The size of a blob is added in 32 bits: a packet with the blob size 2^32 - 4 is accepted, and reading
    the blob is undefined. *)
Theorem C86_blob_refuted : exists d m, init d = Ok ([m], None) /\ popBlob m (arg m) = UB.
Proof.
  exists (["/"; "a"; zero; zero; ","; "b"; "i"; zero]%char ++ big_endian 4 4294967292). eexists. split; [vm_compute; reflexivity|vm_compute; reflexivity].
Qed.
(** A bundle without elements, which OSC allows, is rejected. *)
Theorem C86_empty_bundle_refuted : exists t, init (bundle_marker ++ big_endian 8 t) = Ok ([], Some INVALID_BUNDLE).
Proof. exists 1%N. vm_compute. reflexivity. Qed.

(** ** ScalarOscDecoder *)
Definition no_outputs : outputs := Outputs false false false false false.
(** After any calls of setup() the outputs are those of the types that were passed. *)
Theorem C87_setup : forall l, let o := fold_left setup l no_outputs in
  (o_bool o = true <-> In TBool l) /\ (o_int o = true <-> In TInt l) /\ (o_uint o = true <-> In TUInt l)
  /\ (o_float o = true <-> In TFloat l) /\ (o_double o = true <-> In TDouble l).
Proof.
  assert (X : forall l o, let o' := fold_left setup l o in
    (o_bool o' = true <-> o_bool o = true \/ In TBool l) /\ (o_int o' = true <-> o_int o = true \/ In TInt l)
    /\ (o_uint o' = true <-> o_uint o = true \/ In TUInt l) /\ (o_float o' = true <-> o_float o = true \/ In TFloat l)
    /\ (o_double o' = true <-> o_double o = true \/ In TDouble l)).
  { induction l as [|t l IH]; intros o; cbn zeta; [cbn; tauto|]. cbn [fold_left]. destruct (IH (setup o t)) as (A & B & C & D & E).
    rewrite A, B, C, D, E. destruct t; cbn; intuition discriminate. }
  intros l. destruct (X l no_outputs) as (A & B & C & D & E). cbn zeta. rewrite A, B, C, D, E. cbn. intuition discriminate.
Qed.
Example ex_setup : fold_left setup [TOther; TFloat; TFloat] no_outputs = Outputs false false false true false.
Proof. reflexivity. Qed.

(** The values for a message: the first argument, or zero if it is missing or has another type. *)
Definition negative (c : content) : bool := (2147483648 <=? first int32_of 0 c)%N.
Definition expected (o : outputs) (c : content) : list value :=
  (if o_bool o then [VBool (first bool_of false c)] else [])
  ++ (if o_int o then [VInt (first int32_of 0%N c)] else [])
  ++ (if o_uint o && negative c then []
      else (if o_uint o then [VUInt (first int32_of 0%N c)] else [])
           ++ (if o_float o then [VFloat (first float_of 0%N c)] else [])
           ++ (if o_double o then [VDouble (first double_of 0%N c)] else [])).
Lemma fetch_first {A} (f : osc_arg -> option A) dflt c : fst (fetch f dflt (c_args c) 0) = first f dflt c.
Proof. unfold fetch, first. destruct (c_args c) as [|a l]; [reflexivity|]. cbn. now destruct (f a). Qed.
Lemma decode_delivers o m t c : delivers m (t, c) -> decode o m = Ok (expected o c).
Proof.
  intros (_ & _ & _ & A & D). cbn [snd] in D. destruct (D 0) as (D1 & _ & D2 & D3 & _ & _ & D4). clear D.
  assert (F1 := fetch_first int32_of 0%N c). assert (F2 := fetch_first float_of 0%N c). assert (F3 := fetch_first double_of 0%N c).
  assert (F4 := fetch_first bool_of false c).
  unfold decode, expected, negative. rewrite A, D1, D2, D3, D4.
  destruct (fetch int32_of 0%N (c_args c) 0) as [vi ri], (fetch float_of 0%N (c_args c) 0) as [vf rf],
    (fetch double_of 0%N (c_args c) 0) as [vd rd'], (fetch bool_of false (c_args c) 0) as [vb rb].
  cbn [fst] in *. subst. cbn [bind].
  destruct (o_bool o), (o_int o), (o_uint o), (o_float o), (o_double o); cbn [when bind andb app];
    try destruct (2147483648 <=? first int32_of 0 c)%N; reflexivity.
Qed.
(** For a queue of valid packets the values of all messages are sent, in order. *)
Theorem C87_values : forall o ps, (forall p, In p ps -> valid p) ->
  process o (map encode ps) = Ok (concat (map (fun e => expected o (snd e)) (concat (map (fun p => messages p 1) ps)))).
Proof.
  intros o ps V. induction ps as [|p ps IH]; [reflexivity|]. cbn [map process concat].
  destruct (C86_delivers p (V p (or_introl eq_refl))) as (ms & E & D). rewrite E. cbn [bind popped].
  assert (X : decode_all o ms = Ok (concat (map (fun e => expected o (snd e)) (messages p 1)))).
  { clear -D. induction D as [|m [t c] ms es H _ IH]; [reflexivity|]. cbn [decode_all map concat snd]. rewrite (decode_delivers o m t c H). cbn [bind].
    rewrite IH. reflexivity. }
  rewrite X. cbn [bind]. rewrite IH by (intros q Hq; apply V; now right). cbn [bind]. rewrite map_app, concat_app. reflexivity.
Qed.
Example ex_values : process (Outputs true true true true false) [encode ex_packet] =
  Ok [VBool false; VInt 258; VUInt 258; VFloat 0; VBool false; VInt 0; VUInt 0; VFloat 0].
Proof. vm_compute. reflexivity. Qed.
(** No datagram makes the component read outside of its memory, and malformed datagrams have no effect. *)
Theorem C87_safe : forall o queue, exists vs, process o queue = Ok vs.
Proof.
  intros o queue. induction queue as [|d queue [vs IH]]; [now exists []|]. cbn [process].
  destruct (C86_safe d) as (r & -> & S). cbn [bind].
  assert (X : forall ms, (forall m, In m ms -> In m (popped r)) -> exists v, decode_all o ms = Ok v).
  { induction ms as [|m ms IHm]; intros Sub; [now exists []|]. cbn [decode_all].
    destruct (S m (arg m) (Sub m (or_introl eq_refl))) as ((i & Hi) & _ & (f & Hf) & (dd & Hd) & _).
    assert (D : exists v, decode o m = Ok v).
    { unfold decode. rewrite Hi, Hf, Hd. destruct i as [i ri], f as [f rf], dd as [dd rd'].
      destruct (o_bool o), (o_int o), (o_uint o), (o_float o), (o_double o); cbn [when bind];
        try destruct (2147483648 <=? i)%N; eexists; reflexivity. }
    destruct D as [v ->]. cbn [bind]. destruct IHm as [w ->]; [intros x Hx; apply Sub; now right|]. cbn [bind]. eexists. reflexivity. }
  destruct (X (popped r)) as [v ->]; [auto|]. cbn [bind]. rewrite IH. cbn [bind]. eexists. reflexivity.
Qed.
Theorem C87_malformed : forall o q d q', (forall ms, init d <> Ok (ms, None)) -> process o (q ++ d :: q') = process o (q ++ q').
Proof.
  intros o q d q' M. induction q as [|d' q IH]; cbn [app process].
  - destruct (C86_safe d) as ([ms e] & E & _). rewrite E. cbn [bind]. destruct e as [e|]; [|destruct (M ms E)]. cbn [popped decode_all bind].
    destruct (C87_safe o q') as [vs ->]. reflexivity.
  - rewrite IH. reflexivity.
Qed.
Example ex_malformed_datagram : forall ms, init ["/"; "a"; zero; zero; ","; "q"; zero; zero]%char <> Ok (ms, None).
Proof. intros ms. vm_compute. discriminate. Qed.
(** A message without a value of the right type is not left out, and does not give the default values of
    the code (the largest int, or not-a-number) either: zero is sent. *)
Theorem C87_default_refuted : exists c, valid (Single c) /\ (forall a, In a (c_args c) -> float_of a = None /\ int32_of a = None)
  /\ process (Outputs false true false true false) [encode (Single c)] = Ok [VInt 0; VFloat 0].
Proof.
  exists (Content ["/"]%char [AString ["x"]%char]). split.
  - constructor. split; [eexists; reflexivity|]. split; [intros [|[]]; discriminate|]. intros a [<-|[]]. intros [|[]]; discriminate.
  - split; [intros a [<-|[]]; split; reflexivity|vm_compute; reflexivity].
Qed.
(** The outputs are not independent: a negative number suppresses also the outputs after that for
    unsigned integers. *)
Theorem C87_independent_refuted : exists p, valid p
  /\ process (Outputs false false false true false) [encode p] = Ok [VFloat 0]
  /\ process (Outputs false false true true false) [encode p] = Ok [].
Proof.
  exists (Single (Content ["/"]%char [AInt32 4294967295])). split.
  - constructor. split; [eexists; reflexivity|]. split; [intros [|[]]; discriminate|]. intros a [<-|[]]. reflexivity.
  - split; vm_compute; reflexivity.
Qed.

Print Assumptions C86_safe.
Print Assumptions C86_delivers.
Print Assumptions C86_format.
Print Assumptions C86_unique.
Print Assumptions C86_sticky.
Print Assumptions C86_blob_refuted.
Print Assumptions C86_empty_bundle_refuted.
Print Assumptions C87_setup.
Print Assumptions C87_values.
Print Assumptions C87_safe.
Print Assumptions C87_malformed.
Print Assumptions C87_default_refuted.
Print Assumptions C87_independent_refuted.
