(** C73: the gains of PanningGainMatrix follow the transitions they are sent. *)
From Verif Require Import Base Memory Num PanGainModel PanGainSpec PanGainProofs.
From Coq Require Import Lia.
Local Open Scope res_scope.
Local Open Scope nat_scope.

Theorem C73_construct n m init :
  (exists s, new n m init = Ok s) <-> length init = n /\ Forall (fun g => length g = m) init.
Proof.
  split.
  - intros [s E]. destruct (new_related _ _ _ _ E) as (_ & A & B & _). auto.
  - intros [A B]. unfold new, new_rows. apply Nat.eqb_eq in A. rewrite A. cbn [andb].
    assert (E : forallb (fun g => length g =? m) init = true).
    { apply forallb_forall. intros g I. rewrite Forall_forall in B. now apply Nat.eqb_eq, B. }
    rewrite E. cbn. eauto.
Qed.

(** Transitions that are not in the past and do not interrupt a transition in progress: the output
    is as documented, sample by sample, whatever the block size. *)
Theorem C73_output period n m init s l :
  new n m init = Ok s ->
  allowed_blocks documented fits m period 0 (map initial_trajectory init) l ->
  snd (run_blocks period s 0 l)
  = map Ok (spec_blocks documented m period 0 (map initial_trajectory init) l).
Proof.
  intros E A. destruct (new_related _ _ _ _ E) as (Es & _ & _ & F). rewrite Es.
  apply (run_blocks_ok documented fits m) with (3 := A).
  - intros r x now s0 d g R H L Hf. now apply update_documented.
  - exact F.
Qed.

(** All transitions that are not in the past: no exception, no failing assertion, and the output
    is what [actual] says. *)
Theorem C73_output_actual period n m init s l :
  new n m init = Ok s ->
  allowed_blocks actual (fun _ _ _ => True) m period 0 (map initial_trajectory init) l ->
  snd (run_blocks period s 0 l)
  = map Ok (spec_blocks actual m period 0 (map initial_trajectory init) l).
Proof.
  intros E A. destruct (new_related _ _ _ _ E) as (Es & _ & _ & F). rewrite Es.
  apply (run_blocks_ok actual (fun _ _ _ => True) m) with (3 := A).
  - intros r x now s0 d g R H L _. now apply update_actual.
  - exact F.
Qed.

(** Initial transitions have the effect of a message received in the first block. *)
Theorem C73_initial period n m init t s s' ins outs :
  new n m init = Ok s -> new_transitions n m init t = Ok s' ->
  process period s' 0 None ins outs = process period s 0 (Some t) ins outs.
Proof.
  unfold new, new_transitions. destruct (new_rows n m init) as [rows|e|]; cbn [bind]; try discriminate.
  intros E1 E2. apply Ok_inj in E1. subst s.
  destruct (update_transitions 0 rows 0 t) as [rows' u] eqn:Eu. cbn [fst snd] in E2.
  destruct u as [[]|e|]; cbn [bind] in E2; try discriminate. apply Ok_inj in E2. subst s'.
  unfold process. cbn [s_rows s_port]. rewrite Eu. reflexivity.
Qed.

(** A message with a time stamp in the past is not ignored: the block and, until another message
    arrives, all later blocks fail. *)
Theorem C73_past period m s now msg j ins outs l :
  length (m_stamps msg) = length (s_rows s) -> length (m_durs msg) = length (s_rows s) ->
  length (m_gains msg) = length (s_rows s) ->
  Forall (fun g => length g = m) (m_gains msg) ->
  Forall (fun r => length (targG r) = m /\ length (prevG r) = m) (s_rows s) ->
  j < length (s_rows s) -> late now msg j ->
  Forall (fun b => fst (fst b) = None) l ->
  snd (run_blocks period s now ((Some msg, ins, outs) :: l)) = repeat (Throw RuntimeError) (S (length l)).
Proof.
  intros L1 L2 L3 Lg F Hj Hl Hn.
  assert (Gen : forall l rows now arrived port ins outs,
    match arrived with Some q => Some q | None => port end = Some msg ->
    length (m_stamps msg) = length rows ->
    Forall (fun r => length (targG r) = m /\ length (prevG r) = m) rows ->
    late now msg j -> Forall (fun b : block => fst (fst b) = None) l ->
    snd (run_blocks period (State rows port) now ((arrived, ins, outs) :: l)) = repeat (Throw RuntimeError) (S (length l))).
  { clear ins outs l Hn F Hl.
    induction l as [|b l IH]; intros rows now0 arrived port ins outs Ea L Fr Hl Hn;
      destruct (update_late m now0 msg rows 0 j ltac:(congruence) ltac:(congruence) Lg ltac:(cbn; congruence) Fr
                  ltac:(cbn; lia) Hl) as (rows' & E & Lr & F');
      assert (P : process period (State rows port) now0 arrived ins outs = (State rows' (Some msg), Throw RuntimeError))
        by (unfold process; cbn [s_rows s_port]; rewrite Ea, E; reflexivity).
    - cbn [run_blocks]. rewrite P. reflexivity.
    - remember (b :: l) as bl. cbn [run_blocks]. rewrite P. cbn [fst snd].
      change (repeat (Throw RuntimeError) (S (length bl))) with (@Throw (list (list Qc)) RuntimeError :: repeat (Throw RuntimeError) (length bl)).
      f_equal. subst bl. destruct b as [[a i] o]. inversion Hn as [|b0 l0 H1 H2]; subst. cbn [fst] in H1. subst a.
      apply IH; [reflexivity|congruence|exact F'| |exact H2].
      destruct Hl as (t & Et & Lt). exists t. split; [exact Et|lia]. }
  destruct s as [rows port]. apply (Gen l rows now (Some msg) port); try assumption; reflexivity.
Qed.

(** Assignment of messages: as many objects as loudspeakers *)
Theorem C73_assign dst src :
  length (p_stamps src) = p_rows src -> length (p_durs src) = p_rows src -> p_rows src = p_columns src ->
  assign dst src = (src, Ok tt).
Proof.
  intros A B E. unfold assign. rewrite A, B, Nat.eqb_refl. cbn [negb andb]. unfold copy_gains.
  rewrite <- E, Nat.eqb_refl. cbn [negb andb]. destruct src; cbn in *. now subst.
Qed.
(** and otherwise it fails and leaves the destination changed *)
Theorem C73_assign_refuted dst src :
  length (p_stamps src) = p_rows src -> length (p_durs src) = p_rows src -> p_rows src <> p_columns src ->
  snd (assign dst src) = Throw InvalidArgument
  /\ p_rows (fst (assign dst src)) = p_columns src /\ p_columns (fst (assign dst src)) = p_rows src
  /\ p_gains (fst (assign dst src)) = repeat (repeat 0%Qc (p_rows src)) (p_columns src)
  /\ p_stamps (fst (assign dst src)) = p_stamps src.
Proof.
  intros A B N. unfold assign. rewrite A, B, Nat.eqb_refl. cbn [negb andb]. unfold copy_gains.
  destruct (Nat.eqb_spec (p_columns src) (p_rows src)); [congruence|]. cbn. auto.
Qed.

(** *** Concrete cases *)
Definition qs (l : list Z) : list Qc := map zq l.
Definition msg1 (s d : time) (g : Z) : message := Message [s] [d] [[zq g]].
Definition ones (k : nat) : list Qc := repeat 1%Qc k.

(** two objects, one loudspeaker, blocks of 3: object 0 goes from 0 to 6 in the samples 1 to 3,
    then object 1 jumps to 10 at sample 5 *)
Definition ex_blocks : list block :=
  [(Some (Message [Some 1; None] [Some 3; None] [qs [6%Z]; qs [0%Z]]), [ones 3; ones 3], [qs [7; 7; 7]%Z]);
   (Some (Message [None; Some 5] [None; Some 0] [qs [0%Z]; qs [10%Z]]), [ones 3; ones 3], [qs [7; 7; 7]%Z])].
Example C73_example_allowed :
  allowed_blocks documented fits 1 3 0 (map initial_trajectory [qs [0%Z]; qs [1%Z]]) ex_blocks.
Proof.
  cbn [ex_blocks allowed_blocks]. split.
  { split.
    - repeat split; try reflexivity; [repeat constructor|]. intros [|[|[|j]]] s; cbn; discriminate.
    - intros [|[|[|j]]] x; cbn; try discriminate; intros [= <-]; [split; [lia|left; cbn; lia]|exact I]. }
  split; [reflexivity|]. split; [repeat constructor|]. split; [reflexivity|]. split; [repeat constructor|]. split.
  { split.
    - repeat split; try reflexivity; [repeat constructor|]. intros [|[|[|j]]] s; cbn; discriminate.
    - intros [|[|[|j]]] x; cbn; try discriminate; intros [= <-]; [exact I|split; [lia|left; cbn; lia]]. }
  split; [reflexivity|]. split; [repeat constructor|]. split; [reflexivity|]. split; [repeat constructor|]. exact I.
Qed.
Definition out_of (r : res (list (list Qc))) : list (list Q) :=
  match r with Ok o => map (map this) o | _ => [] end.
Example C73_example_output :
  match new 2 1 [qs [0%Z]; qs [1%Z]] with
  | Ok s => map out_of (snd (run_blocks 3 s 0 ex_blocks))
  | _ => []
  end = [[map inject_Z [1; 3; 5]%Z]; [map inject_Z [7; 7; 16]%Z]].
Proof. vm_compute. reflexivity. Qed.

(** Interrupted transitions.  Blocks of 2; the gain goes from 0 to 8 in the samples 0 to 3. *)
Definition first_block : block := (Some (msg1 (Some 0) (Some 4) 8), [ones 2], [qs [7; 7]%Z]).
(** a transition to 8 that starts at sample 2, received when the gain is 4: the gain falls to 0 *)
Definition interrupt_now : list block := [first_block; (Some (msg1 (Some 2) (Some 4) 8), [ones 2], [qs [7; 7]%Z])].
(** a transition that starts at sample 3, received at sample 2: the gain falls as well *)
Definition interrupt_later : list block := [first_block; (Some (msg1 (Some 3) (Some 4) 8), [ones 2], [qs [7; 7]%Z])].

Definition outputs_of (l : list block) : list (list (list Q)) :=
  match new 1 1 [qs [0%Z]] with Ok s => map out_of (snd (run_blocks 2 s 0 l)) | _ => [] end.
Definition documented_of (l : list block) : list (list (list Q)) :=
  map (map (map this)) (spec_blocks documented 1 2 0 (map initial_trajectory [qs [0%Z]]) l).

Theorem C73_interrupt_refuted : exists s,
  new 1 1 [qs [0%Z]] = Ok s
  /\ allowed_blocks documented (fun _ _ _ => True) 1 2 0 (map initial_trajectory [qs [0%Z]]) interrupt_now
  /\ snd (run_blocks 2 s 0 interrupt_now)
     <> map Ok (spec_blocks documented 1 2 0 (map initial_trajectory [qs [0%Z]]) interrupt_now).
Proof.
  eexists. split; [reflexivity|]. split.
  - cbn [interrupt_now allowed_blocks first_block]. split.
    { split.
      - repeat split; try reflexivity; [repeat constructor|]. intros [|[|j]] s; cbn; discriminate.
      - intros [|[|j]] x; cbn; try discriminate; intros [= <-]. split; [lia|exact I]. }
    split; [reflexivity|]. split; [repeat constructor|]. split; [reflexivity|]. split; [repeat constructor|]. split.
    { split.
      - repeat split; try reflexivity; [repeat constructor|]. intros [|[|j]] s; cbn; discriminate.
      - intros [|[|j]] x; cbn; try discriminate; intros [= <-]. split; [lia|exact I]. }
    split; [reflexivity|]. split; [repeat constructor|]. split; [reflexivity|]. split; [repeat constructor|]. exact I.
  - intros E. apply (f_equal (map out_of)) in E. vm_compute in E. discriminate E.
Qed.
Theorem C73_interrupt_later_refuted : exists s,
  new 1 1 [qs [0%Z]] = Ok s
  /\ allowed_blocks documented (fun _ _ _ => True) 1 2 0 (map initial_trajectory [qs [0%Z]]) interrupt_later
  /\ snd (run_blocks 2 s 0 interrupt_later)
     <> map Ok (spec_blocks documented 1 2 0 (map initial_trajectory [qs [0%Z]]) interrupt_later).
Proof.
  eexists. split; [reflexivity|]. split.
  - cbn [interrupt_later allowed_blocks first_block]. split.
    { split.
      - repeat split; try reflexivity; [repeat constructor|]. intros [|[|j]] s; cbn; discriminate.
      - intros [|[|j]] x; cbn; try discriminate; intros [= <-]. split; [lia|exact I]. }
    split; [reflexivity|]. split; [repeat constructor|]. split; [reflexivity|]. split; [repeat constructor|]. split.
    { split.
      - repeat split; try reflexivity; [repeat constructor|]. intros [|[|j]] s; cbn; discriminate.
      - intros [|[|j]] x; cbn; try discriminate; intros [= <-]. split; [lia|exact I]. }
    split; [reflexivity|]. split; [repeat constructor|]. split; [reflexivity|]. split; [repeat constructor|]. exact I.
  - intros E. apply (f_equal (map out_of)) in E. vm_compute in E. discriminate E.
Qed.
Example C73_example_interrupt :
  outputs_of interrupt_now = [[map inject_Z [2; 4]%Z]; [map inject_Z [2; 4]%Z]]
  /\ documented_of interrupt_now = [[map inject_Z [2; 4]%Z]; [map inject_Z [5; 6]%Z]]
  /\ documented_of interrupt_later = [[map inject_Z [2; 4]%Z]; [[inject_Z 6; 13 # 2]]]
  /\ outputs_of interrupt_later = [[map inject_Z [2; 4]%Z]; [[inject_Z 4; inject_Z 5]]].
Proof. repeat split; vm_compute; reflexivity. Qed.

(** a late message *)
Example C73_example_past :
  match new 1 1 [qs [0%Z]] with
  | Ok s => snd (run_blocks 2 s 0 [(None, [ones 2], [ones 2]); (Some (msg1 (Some 1) (Some 4) 8), [ones 2], [ones 2]);
                                   (None, [ones 2], [ones 2])])
  | _ => []
  end = [Ok [qs [0; 0]%Z]; Throw RuntimeError; Throw RuntimeError].
Proof.
  vm_compute. reflexivity.
Qed.

(** an infinite duration *)
Example C73_example_infinite :
  match new 1 1 [qs [0%Z]] with
  | Ok s => map is_ok (snd (run_blocks 2 s 0 [(None, [ones 2], [ones 2]); (Some (msg1 (Some 2) None 8), [ones 2], [ones 2])]))
  | _ => []
  end = [true; false].
Proof. vm_compute. reflexivity. Qed.

(** two objects and three loudspeakers *)
Example C73_example_assign :
  let src := Param 2 3 [qs [1; 2; 3]%Z; qs [4; 5; 6]%Z] [Some 0; None] [Some 1; None] in
  snd (assign src (Param 2 3 (p_gains src) (p_stamps src) (p_durs src))) = Throw InvalidArgument.
Proof. vm_compute. reflexivity. Qed.

Print Assumptions C73_construct.
Print Assumptions C73_output.
Print Assumptions C73_output_actual.
Print Assumptions C73_initial.
Print Assumptions C73_past.
Print Assumptions C73_assign.
Print Assumptions C73_assign_refuted.
Print Assumptions C73_interrupt_refuted.
Print Assumptions C73_interrupt_later_refuted.
