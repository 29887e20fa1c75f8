(** Properties C08, C09: FlexibleBufferWrapper. *)
From Verif Require Import Base Memory CircularBufferModel CircularBufferProofs
  FlexibleBufferModel FlexibleBufferProofs FlexibleBufferSession.

Local Open Scope res_scope.

(** C08.  Any sequence of process() calls with any frame counts, around any
    signal flow: the playback stream of every channel is one period of zeros
    followed by the flow applied to the consecutive period-blocks of the capture
    streams; nothing else in the playback arrays changes. *)
Theorem C08_flexible_buffer_one_period_delay :
  forall {A} (zero : A) {S} (P ncap nplay : nat)
         (flow : S -> list (list A) -> S * list (list A)),
    1 <= P -> flow_ok P ncap nplay flow ->
    forall (s0 : S) (cs : list call),
      Forall (call_ok ncap nplay) cs ->
      exists w0 w outs,
        fb_new zero P ncap nplay s0 = Ok w0
        /\ fb_session P ncap nplay flow w0 cs = Ok (w, outs)
        /\ Forall2 (rest_untouched nplay) cs outs
        /\ f_flow w = fst (ideal zero P ncap flow s0 (captured cs) (frames cs / P))
        /\ forall ch, ch < nplay ->
             played cs outs ch
             = firstn (frames cs) (snd (ideal zero P ncap flow s0 (captured cs) (frames cs / P)) ch).
Proof. intros. now apply fb_total. Qed.
Print Assumptions C08_flexible_buffer_one_period_delay.

(** C08.  How the streams are cut into calls does not matter. *)
Theorem C08_frame_counts_irrelevant :
  forall {A} (zero : A) {S} (P ncap nplay : nat)
         (flow : S -> list (list A) -> S * list (list A)),
    1 <= P -> flow_ok P ncap nplay flow ->
    forall (s0 : S) (cs1 cs2 : list call),
      Forall (call_ok ncap nplay) cs1 -> Forall (call_ok ncap nplay) cs2 ->
      frames cs1 = frames cs2 ->
      (forall ch, ch < ncap -> captured cs1 ch = captured cs2 ch) ->
      exists w0 w1 w2 o1 o2, fb_new zero P ncap nplay s0 = Ok w0
        /\ fb_session P ncap nplay flow w0 cs1 = Ok (w1, o1)
        /\ fb_session P ncap nplay flow w0 cs2 = Ok (w2, o2)
        /\ forall ch, ch < nplay -> played cs1 o1 ch = played cs2 o2 ch.
Proof. intros. now apply fb_partition_independent. Qed.
Print Assumptions C08_frame_counts_irrelevant.

(** A running sum over time as an example of a stateful flow. *)
Definition acc_row (s : nat) (row : list nat) : nat * list nat :=
  fold_left (fun st x => (fst st + x, snd st ++ [fst st + x])) row (s, []).
Definition acc_flow (s : nat) (rows : list (list nat)) : nat * list (list nat) :=
  let '(s', o) := acc_row s (nth 0 rows []) in (s', [o]).

Lemma acc_row_length row : forall s o,
  length (snd (fold_left (fun st x => (fst st + x, snd st ++ [fst st + x])) row (s, o)))
  = length o + length row.
Proof.
  induction row as [|x row IH]; intros s o; simpl; [lia|].
  rewrite IH, app_length. simpl. lia.
Qed.

Example acc_flow_ok : flow_ok 3 1 1 acc_flow.
Proof.
  intros s rows L F. unfold acc_flow, acc_row.
  destruct rows as [|r [|? ?]]; try discriminate L. inversion F; subst. cbn [nth].
  pose proof (acc_row_length r s []) as H.
  destruct (fold_left _ r (s, [])) as [s' o]. simpl in *.
  split; [reflexivity|]. constructor; [lia|constructor].
Qed.

Definition ex_calls : list call :=
  [ MkCall [[1; 2]] [[9; 9]] 2; MkCall [[3; 4; 5; 6; 7]] [[9; 9; 9; 9; 9; 8]] 5;
    MkCall [[]] [[7]] 0; MkCall [[8]] [[9]] 1 ].

Example ex_C08 :
  Forall (call_ok 1 1) ex_calls
  /\ (w0 <- fb_new 0 3 1 1 0 ;; wo <- fb_session 3 1 1 acc_flow w0 ex_calls ;; Ok (snd wo))
     = Ok [[[0; 0]]; [[0; 1; 3; 6; 10; 8]]; [[7]]; [[15]]].
Proof.
  split; [|vm_compute; reflexivity].
  unfold ex_calls. repeat (apply Forall_cons; [unfold call_ok; simpl; repeat split; try lia;
    repeat (apply Forall_cons; [simpl; lia|]); apply Forall_nil|]); apply Forall_nil.
Qed.

(** C09 (partial).  After any session, a strided call behaves like the pointer
    call on the same samples if the playback sample stride is 1 or the call does
    not cross a period boundary.  Missing: other strides across a boundary, where
    the code is wrong (next theorem). *)
Theorem C09_strided_equals_pointer_partial :
  forall {A} (zero : A) {S} (P ncap nplay : nat)
         (flow : S -> list (list A) -> S * list (list A)),
    1 <= P -> flow_ok P ncap nplay flow ->
    forall (s0 : S) (cs : list call) cap ccs css play pcs pss n,
      Forall (call_ok ncap nplay) cs ->
      (forall ch i, ch < ncap -> i < n -> slot ccs css ch i < length cap) ->
      layout_ok nplay n pcs pss (length play) ->
      pss = 1 \/ frames cs mod P + n <= P ->
      exists w0 w outs w1 out1 w2 out2,
        fb_new zero P ncap nplay s0 = Ok w0
        /\ fb_session P ncap nplay flow w0 cs = Ok (w, outs)
        /\ fb_process P ncap nplay flow w (map (gather zero cap ccs css n) (seq 0 ncap))
             (repeat (repeat zero n) nplay) n = Ok (w1, out1)
        /\ fb_process_strided P ncap nplay flow w cap ccs css play pcs pss n = Ok (w2, out2)
        /\ f_flow w1 = f_flow w2
        /\ length out2 = length play
        /\ (forall ch i, ch < nplay -> i < n ->
              nth_error out2 (slot pcs pss ch i) = nth_error (nth ch out1 []) i
              /\ nth_error out2 (slot pcs pss ch i) <> None)
        /\ (forall a, (forall ch i, ch < nplay -> i < n -> slot pcs pss ch i <> a) ->
              nth_error out2 a = nth_error play a).
Proof. intros. now apply fb_strided_equals_pointer. Qed.
Print Assumptions C09_strided_equals_pointer_partial.

(** C09 is false of the code: an interleaved stereo-sized buffer (sample stride 2)
    and a call of two periods. *)
Theorem C09_strided_overload_refuted :
  exists (P : nat) (flow : nat -> list (list nat) -> nat * list (list nat))
         w (cap : list nat) css play pss n w1 out1 w2 out2,
    1 <= P /\ flow_ok P 1 1 flow
    /\ fb_new 0 P 1 1 0 = Ok w
    /\ layout_ok 1 n 1 pss (length play)
    /\ (forall ch i, ch < 1 -> i < n -> slot 1 css ch i < length cap)
    /\ fb_process P 1 1 flow w (map (gather 0 cap 1 css n) (seq 0 1)) (repeat (repeat 0 n) 1) n
         = Ok (w1, out1)
    /\ fb_process_strided P 1 1 flow w cap 1 css play 1 pss n = Ok (w2, out2)
    /\ exists i, i < n /\ nth_error out2 (slot 1 pss 0 i) <> nth_error (nth 0 out1 []) i.
Proof.
  eexists 3, acc_flow, _, [1;1;1;1;1;1], 1, (repeat 99 12), 2, 6, _, _, _, _.
  split; [lia|]. split; [exact acc_flow_ok|].
  split; [vm_compute; reflexivity|]. split.
  { split; unfold slot; intros; simpl; lia. }
  split; [intros; unfold slot; simpl; lia|].
  split; [vm_compute; reflexivity|]. split; [vm_compute; reflexivity|].
  exists 4. split; [lia|]. vm_compute. discriminate.
Qed.
Print Assumptions C09_strided_overload_refuted.

(** Interleaved stereo playback within one period is fine. *)
Example ex_C09_layout : layout_ok 2 3 1 2 6.
Proof. split; unfold slot; intros; lia. Qed.
