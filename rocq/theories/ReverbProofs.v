(** Specification vocabulary and proofs for ReverbModel.v. *)
From Verif Require Import Base.
From Coq Require Import QArith Qcanon.
From Verif Require Import OrdSet SignalRoutingModel SignalRoutingProofs AllocatorModel AllocatorProofs ReverbModel.
Local Open Scope nat_scope.

(** ** Independent specification *)

(** Two late reverberations do not differ by more than 2^-23 in any parameter. *)
Definition near (x y : Qc) : Prop := (- limit <= x - y)%Qc /\ (x - y <= limit)%Qc.
Definition close (l r : late) : Prop :=
  near (l_onset l) (l_onset r) /\ Forall2 near (l_levels l) (l_levels r)
  /\ Forall2 near (l_decays l) (l_decays r) /\ Forall2 near (l_attacks l) (l_attacks r).
Definition nine (l : late) : Prop :=
  length (l_levels l) = 9 /\ length (l_decays l) = 9 /\ length (l_attacks l) = 9.
(** The last message sent for a channel. *)
Fixpoint last_sent (sent : list (nat * late)) (ch : nat) : option late :=
  match sent with
  | [] => None
  | (k, l) :: r => match last_sent r ch with
                   | Some x => Some x
                   | None => if k =? ch then Some l else None
                   end
  end.

Section Spec.
  Context {B P : Type} (flat : B) (vbap : P -> list Qc) (invalid : nat) (c : config).
  Notation scene := (@scene B P).
  Notation source := (@source B P).
  Notation outs := (@outs B).

  (** the object is a source with reverberation and one channel *)
  Definition single (o : source) (input : nat) (rs : list (@reflection B P)) (l : late) : Prop :=
    o = Reverb [input] rs l.
  Definition is_single (o : source) : Prop := exists input rs l, single o input rs l.

  (** What ObjectVector and PointSourceWithReverb guarantee, and no object has the
      identifier that means "no object". *)
  Definition valid_scene (sc : scene) : Prop :=
    NoDup (map fst sc)
    /\ (forall id o, In (id, o) sc -> id <> 4294967295%Z)
    /\ (forall id ch rs l, In (id, Reverb ch rs l) sc -> nine l /\ Forall (fun r => length (r_filters r) = 10) rs).
  Definition few_objects (sc : scene) : Prop :=
    exists ids, NoDup ids /\ length ids <= c_objects c /\
      forall id o, In (id, o) sc -> is_single o -> In id ids.
  Definition few_reflections (sc : scene) : Prop :=
    forall id input rs l, In (id, Reverb [input] rs l) sc -> length rs <= c_reflections c.

  (** Column [i] of the panning matrix. *)
  Definition column (p : list Qc) (i : nat) : list (option Qc) :=
    map (fun k => nth_error p (k * c_stride c + i)) (seq 0 (c_speakers c)).
  (** Slot [i] of the discrete reflections plays reflection [r], or nothing. *)
  Definition plays (o : outs) (p : list Qc) (i : nat) (r : option (@reflection B P)) : Prop :=
    nth_error (o_gains o) i = Some (match r with Some r => r_level r | None => Q2Qc 0 end)
    /\ nth_error (o_delays o) i = Some (match r with Some r => r_delay r | None => Q2Qc 0 end)
    /\ nth_error (o_eqs o) i = Some (match r with Some r => r_filters r | None => repeat flat 10 end)
    /\ column p i = map Some (match r with Some r => vbap (r_position r) | None => repeat (Q2Qc 0) (c_speakers c) end).
  (** The outputs for channel [ch] are those of the object with this input and these
      reflections, or those of no object. *)
  Definition renders (o : outs) (p : list Qc) (ch : nat) (x : option (nat * list (@reflection B P))) : Prop :=
    (forall input, In (MkEntry input ch) (o_routing o) <-> option_map fst x = Some input)
    /\ nth_error (o_late_gains o) ch = Some (match x with Some _ => Q2Qc 1 | None => Q2Qc 0 end)
    /\ nth_error (o_late_delays o) ch = Some (Q2Qc 0)
    /\ forall k, k < c_reflections c ->
         plays o p (ch * c_reflections c + k) (match x with Some (_, rs) => nth_error rs k | None => None end).
End Spec.

(** ** Numbers *)
Lemma Qcltn x y : (x < y)%Qc -> ~ (y <= x)%Qc.
Proof. apply Qclt_not_le. Qed.
Lemma qleb_iff x y : qleb x y = true <-> (x <= y)%Qc.
Proof.
  unfold qleb. destruct (Qclt_le_dec y x) as [L|L]; split; intros H; try easy.
  now apply Qcltn in L.
Qed.
Lemma qabs_le x m : (qabs x <= m)%Qc <-> (- m <= x)%Qc /\ (x <= m)%Qc.
Proof.
  unfold qabs. destruct (Qclt_le_dec x (Q2Qc 0)) as [L|L].
  - split.
    + intros H. split.
      * replace x with (- - x)%Qc by ring. now apply Qcopp_le_compat.
      * apply Qclt_le_weak in L. apply Qcle_trans with (1 := L).
        apply Qcle_trans with (2 := H). replace (Q2Qc 0) with (- 0)%Qc by ring. now apply Qcopp_le_compat.
    + intros [H _]. apply Qcopp_le_compat in H. now rewrite Qcopp_involutive in H.
  - split.
    + intros H. split; [|exact H]. apply Qcle_trans with (2 := L).
      replace (Q2Qc 0) with (- 0)%Qc by ring. apply Qcopp_le_compat. now apply Qcle_trans with (1 := L).
    + now intros [_ H].
Qed.
Lemma qmax_le x y m : (qmax x y <= m)%Qc <-> (x <= m)%Qc /\ (y <= m)%Qc.
Proof.
  unfold qmax. destruct (Qclt_le_dec x y) as [L|L]; split.
  - intros H. split; [|exact H]. apply Qclt_le_weak in L. now apply Qcle_trans with (1 := L).
  - now intros [_ H].
  - intros H. split; [exact H|]. now apply Qcle_trans with (1 := L).
  - now intros [H _].
Qed.
Lemma max_diff_le l : forall r acc m, length l = length r ->
  ((max_diff_from acc l r <= m)%Qc <->
   (acc <= m)%Qc /\ Forall2 (fun x y => (- m <= x - y)%Qc /\ (x - y <= m)%Qc) l r).
Proof.
  induction l as [|x l IH]; intros [|y r] acc m E; cbn [max_diff_from]; try discriminate.
  - split; [intros H; now split|tauto].
  - injection E as E. rewrite (IH _ _ _ E), qmax_le, qabs_le. split.
    + intros [[H1 H2] H3]. split; [exact H1|]. now constructor.
    + intros [H1 H]. inversion H; subst. now repeat split.
Qed.
Lemma limit_pos : (Q2Qc 0 <= limit)%Qc.
Proof. now apply qleb_iff. Qed.
Lemma late_equal_iff l r : nine l -> nine r -> late_equal l r = true <-> close l r.
Proof.
  intros (A1 & A2 & A3) (B1 & B2 & B3). unfold late_equal, close, near.
  rewrite !andb_true_iff, !qleb_iff, qabs_le. unfold max_diff.
  rewrite !max_diff_le by congruence. pose proof limit_pos as Z. tauto.
Qed.
Lemma nine_unsent : nine unsent.
Proof. repeat split. Qed.
Lemma nine_default : nine late_default.
Proof. repeat split. Qed.
Lemma default_parameter_ok : default_parameter = Ok late_default.
Proof. reflexivity. Qed.
Lemma close_refl l : close l l.
Proof.
  assert (N : forall x, near x x).
  { intros x. unfold near. replace (x - x)%Qc with (Q2Qc 0) by ring. split; [|apply limit_pos].
    now apply qleb_iff. }
  assert (F : forall l, Forall2 near l l) by (induction l0; constructor; auto).
  repeat split; auto; apply N.
Qed.

(** ** Lists *)
Lemma poke_length {X} (l : list X) i x : i < length l -> length (poke l i x) = length l.
Proof. intros H. unfold poke. rewrite app_length, firstn_length. cbn [length]. rewrite skipn_length. lia. Qed.
Lemma poke_nth {X} (l : list X) i x j : i < length l ->
  nth_error (poke l i x) j = if j =? i then Some x else nth_error l j.
Proof.
  intros H. unfold poke. destruct (Nat.eqb_spec j i) as [->|N].
  - rewrite nth_error_app2; rewrite firstn_length; [|lia]. replace (i - Nat.min i (length l)) with 0 by lia. reflexivity.
  - destruct (Nat.lt_ge_cases j i) as [L|L].
    + rewrite nth_error_app1 by (rewrite firstn_length; lia).
      clear N H. revert j i L. induction l as [|y l IH]; intros [|j] [|i] L; cbn; try lia; auto. apply IH. lia.
    + rewrite nth_error_app2; rewrite firstn_length; [|lia]. replace (j - Nat.min i (length l)) with (S (j - S i)) by lia.
      cbn [nth_error].
      assert (G : forall n (l : list X) k, nth_error (skipn n l) k = nth_error l (n + k)).
      { clear. induction n; intros [|y l] k; cbn; auto. now destruct k. }
      rewrite G. f_equal. lia.
Qed.

Lemma last_sent_app a b ch :
  last_sent (a ++ b) ch = match last_sent b ch with Some l => Some l | None => last_sent a ch end.
Proof.
  induction a as [|[k l] a IH]; cbn [last_sent app]; [now destruct (last_sent b ch)|].
  rewrite IH. destruct (last_sent b ch); [reflexivity|]. now destruct (last_sent a ch).
Qed.

(** ** Effects of statements *)
Section Effects.
  Context {B P : Type} (flat : B) (vbap : P -> list Qc) (invalid : nat) (c : config).
  Notation scene := (@scene B P).
  Notation source := (@source B P).
  Notation outs := (@outs B).
  Notation state := (@state B).
  Notation act := (@act B).
  Hypothesis gains : forall x, length (vbap x) = c_speakers c.
  Hypothesis wide : c_objects c * c_reflections c <= c_stride c.

  Inductive cell := CGain (i : nat) | CDelay (i : nat) | CEq (i j : nat) | CLateG (i : nat) | CLateD (i : nat)
                  | CPan (i : nat) | CRoute (i : nat).
  Inductive val := VNum (q : Qc) | VBiq (b : B) | VIn (o : option nat).
  Lemma cell_dec (x y : cell) : {x = y} + {x <> y}.
  Proof. decide equality; apply Nat.eq_dec. Qed.

  Definition route (t : routings) (ch : nat) : option nat :=
    option_map e_in (set_find e_less (MkEntry invalid ch) t).
  Definition get (o : outs) (p : list Qc) (x : cell) : option val :=
    match x with
    | CGain i => option_map VNum (nth_error (o_gains o) i)
    | CDelay i => option_map VNum (nth_error (o_delays o) i)
    | CEq i j => match nth_error (o_eqs o) i with Some row => option_map VBiq (nth_error row j) | None => None end
    | CLateG i => option_map VNum (nth_error (o_late_gains o) i)
    | CLateD i => option_map VNum (nth_error (o_late_delays o) i)
    | CPan i => option_map VNum (nth_error p i)
    | CRoute ch => Some (VIn (route (o_routing o) ch))
    end.
  Definition slots : nat := c_reflections c * c_objects c.
  Definition dom (x : cell) : Prop :=
    match x with
    | CGain i | CDelay i => i < slots
    | CEq i j => i < slots /\ j < sections
    | CLateG i | CLateD i => i < c_objects c
    | CPan i => i < c_speakers c * c_stride c
    | CRoute ch => ch < c_objects c
    end.

  (** The shape of the outputs *)
  Definition sized (o : outs) : Prop :=
    (exists m, prel (o_routing o) m) /\ Forall (fun e => e_out e < c_objects c) (o_routing o)
    /\ length (o_gains o) = slots /\ length (o_delays o) = slots
    /\ length (o_eqs o) = slots /\ Forall (fun r => length r = sections) (o_eqs o)
    /\ length (o_late_gains o) = c_objects c /\ length (o_late_delays o) = c_objects c.
  Definition shape (s : state) : Prop :=
    sized (s_back s) /\ sized (s_front s) /\ length (s_panning s) = c_speakers c * c_stride c.
  Definition logged (s : state) : Prop :=
    length (s_previous s) = c_objects c
    /\ forall ch l, nth_error (s_previous s) ch = Some l ->
         nine l /\ l = match last_sent (s_sent s) ch with Some x => x | None => unsent end.
  Definition inv (s : state) : Prop := shape s /\ logged s.

  (** Sending of late parameters as a pure step *)
  Definition send_step (ps : list late * list (nat * late)) (m : nat * late) : list late * list (nat * late) :=
    let '(prev, sent) := ps in
    match nth_error prev (fst m) with
    | Some p => if late_equal p (snd m) then (prev, sent) else (poke prev (fst m) (snd m), sent ++ [m])
    | None => (prev, sent)
    end.

  Definition written (ws : list (cell * val)) (o o' : outs) (p p' : list Qc) : Prop :=
    forall y, (exists v, In (y, v) ws /\ get o' p' y = Some v) \/ ((forall v, ~ In (y, v) ws) /\ get o' p' y = get o p y).

  (** The statement completes, writes the given values and sends the given parameters. *)
  Definition performs (a : alloc) (x : act) (ws : list (cell * val)) (ls : list (nat * late)) : Prop :=
    forall s, s_alloc s = a -> inv s ->
      (forall y v, In (y, v) ws -> dom y) -> (forall ch l, In (ch, l) ls -> ch < c_objects c /\ nine l) ->
      exists s', x s = (s', Ok tt) /\ inv s' /\ s_alloc s' = a /\ s_front s' = s_front s
        /\ (s_previous s', s_sent s') = fold_left send_step ls (s_previous s, s_sent s)
        /\ written ws (s_back s) (s_back s') (s_panning s) (s_panning s').

  Lemma performs_skip a : performs a skip_act [] [].
  Proof.
    intros s A I _ _. exists s. split; [reflexivity|]. repeat (split; [assumption || reflexivity|]).
    intros y. right. split; [intros v []|reflexivity].
  Qed.
  Lemma performs_then a x y ws1 ls1 ws2 ls2 :
    performs a x ws1 ls1 -> performs a y ws2 ls2 -> performs a (andthen x y) (ws1 ++ ws2) (ls1 ++ ls2).
  Proof.
    intros H1 H2 s A I D L.
    destruct (H1 s A I) as (s1 & E1 & I1 & A1 & F1 & S1 & W1).
    { intros u v Hu. apply (D u v). apply in_or_app. now left. }
    { intros ch l Hl. apply L. apply in_or_app. now left. }
    destruct (H2 s1 A1 I1) as (s2 & E2 & I2 & A2 & F2 & S2 & W2).
    { intros u v Hu. apply (D u v). apply in_or_app. now right. }
    { intros ch l Hl. apply L. apply in_or_app. now right. }
    exists s2. split; [unfold andthen; now rewrite E1|]. split; [exact I2|]. split; [exact A2|].
    split; [congruence|]. split.
    - rewrite S2, S1. now rewrite fold_left_app.
    - intros u. destruct (W2 u) as [(v & Iv & Ev)|[Nv Ev]].
      + left. exists v. split; [apply in_or_app; now right|exact Ev].
      + destruct (W1 u) as [(v & Iv & Ev')|[Nv' Ev']].
        * left. exists v. split; [apply in_or_app; now left|congruence].
        * right. split; [|congruence]. intros v Hv. apply in_app_or in Hv as [Hv|Hv]; [now apply (Nv' v)|now apply (Nv v)].
  Qed.
  Lemma performs_each {X} a (f : X -> act) (ws : X -> list (cell * val)) (ls : X -> list (nat * late)) l :
    (forall x, In x l -> performs a (f x) (ws x) (ls x)) ->
    performs a (each f l) (flat_map ws l) (flat_map ls l).
  Proof.
    induction l as [|x l IH]; intros H; cbn [each flat_map]; [apply performs_skip|].
    apply performs_then; [apply H; now left|]. apply IH. intros y Hy. apply H. now right.
  Qed.
  Lemma performs_value {X} a (m : res X) k x ws ls : m = Ok x -> performs a (k x) ws ls -> performs a (with_value m k) ws ls.
  Proof. intros -> H. exact H. Qed.

  (** *** Elementary statements *)
  Lemma performs_back a (x : act) ws (f : outs -> outs) :
    (forall s, shape s -> (forall y v, In (y, v) ws -> dom y) -> x s = (with_back s (f (s_back s)), Ok tt)) ->
    (forall o p, sized o -> length p = c_speakers c * c_stride c -> (forall y v, In (y, v) ws -> dom y) ->
      sized (f o) /\ written ws o (f o) p p) ->
    performs a x ws [].
  Proof.
    intros H1 H2 s A [(Z1 & Z2 & Z3) G] D _. exists (with_back s (f (s_back s))).
    destruct (H2 (s_back s) (s_panning s) Z1 Z3 D) as [Z1' W].
    split; [apply H1; [split; [exact Z1|now split]|exact D]|]. split; [|now repeat split].
    split; [split; [exact Z1'|now split]|exact G].
  Qed.

  Ltac cells := match goal with
    | |- written [(?z, ?v)] _ _ _ _ =>
        let y := fresh "y" in intros y; let NN := fresh "NN" in destruct (cell_dec y z) as [->|NN];
        [left; exists v; split; [now left|]
        |right; split; [let E := fresh in intros ? [E|[]]; congruence|destruct y; cbn [get o_gains o_delays o_eqs o_late_gains o_late_delays o_routing]; try reflexivity]]
    end.
  Lemma dom_one {y : cell} {v : val} : (forall z w, In (z, w) [(y, v)] -> dom z) -> dom y.
  Proof. intros H. apply (H y v). now left. Qed.
  Lemma performs_gain a i v : performs a (set_gain i v) [(CGain i, VNum v)] [].
  Proof.
    apply performs_back with (f := fun o => MkOuts (o_routing o) (poke (o_gains o) i v) (o_delays o) (o_eqs o) (o_late_gains o) (o_late_delays o)).
    - intros s ((_ & _ & S1 & _) & _) D. apply dom_one in D. cbn [dom] in D. unfold set_gain. rewrite S1.
      destruct (Nat.ltb_spec i slots); [reflexivity|lia].
    - intros o p Z Lp D. apply dom_one in D. cbn [dom] in D. split.
      + destruct Z as (R & RB & S1 & S2 & S3 & S4 & S5 & S6). unfold sized. cbn. rewrite poke_length by lia. auto 10.
      + destruct Z as (R & RB & S1 & _). cells.
        * cbn. rewrite poke_nth, Nat.eqb_refl by lia. reflexivity.
        * rewrite poke_nth by lia. destruct (Nat.eqb_spec i0 i); [congruence|reflexivity].
  Qed.
  Lemma performs_delay a i v : performs a (set_delay i v) [(CDelay i, VNum v)] [].
  Proof.
    apply performs_back with (f := fun o => MkOuts (o_routing o) (o_gains o) (poke (o_delays o) i v) (o_eqs o) (o_late_gains o) (o_late_delays o)).
    - intros s ((_ & _ & _ & S1 & _) & _) D. apply dom_one in D. cbn [dom] in D. unfold set_delay. rewrite S1.
      destruct (Nat.ltb_spec i slots); [reflexivity|lia].
    - intros o p Z Lp D. apply dom_one in D. cbn [dom] in D. split.
      + destruct Z as (R & RB & S1 & S2 & S3 & S4 & S5 & S6). unfold sized. cbn. rewrite poke_length by lia. auto 10.
      + destruct Z as (R & RB & _ & S1 & _). cells.
        * cbn. rewrite poke_nth, Nat.eqb_refl by lia. reflexivity.
        * rewrite poke_nth by lia. destruct (Nat.eqb_spec i0 i); [congruence|reflexivity].
  Qed.
  Lemma performs_late_gain a i v : performs a (set_late_gain i v) [(CLateG i, VNum v)] [].
  Proof.
    apply performs_back with (f := fun o => MkOuts (o_routing o) (o_gains o) (o_delays o) (o_eqs o) (poke (o_late_gains o) i v) (o_late_delays o)).
    - intros s ((_ & _ & _ & _ & _ & _ & S1 & _) & _) D. apply dom_one in D. cbn [dom] in D. unfold set_late_gain. rewrite S1.
      destruct (Nat.ltb_spec i (c_objects c)); [reflexivity|lia].
    - intros o p Z Lp D. apply dom_one in D. cbn [dom] in D. split.
      + destruct Z as (R & RB & S1 & S2 & S3 & S4 & S5 & S6). unfold sized. cbn. rewrite poke_length by lia. auto 10.
      + destruct Z as (R & RB & _ & _ & _ & _ & S1 & _). cells.
        * cbn. rewrite poke_nth, Nat.eqb_refl by lia. reflexivity.
        * rewrite poke_nth by lia. destruct (Nat.eqb_spec i0 i); [congruence|reflexivity].
  Qed.
  Lemma performs_late_delay a i v : performs a (set_late_delay i v) [(CLateD i, VNum v)] [].
  Proof.
    apply performs_back with (f := fun o => MkOuts (o_routing o) (o_gains o) (o_delays o) (o_eqs o) (o_late_gains o) (poke (o_late_delays o) i v)).
    - intros s ((_ & _ & _ & _ & _ & _ & _ & S1) & _) D. apply dom_one in D. cbn [dom] in D. unfold set_late_delay. rewrite S1.
      destruct (Nat.ltb_spec i (c_objects c)); [reflexivity|lia].
    - intros o p Z Lp D. apply dom_one in D. cbn [dom] in D. split.
      + destruct Z as (R & RB & S1 & S2 & S3 & S4 & S5 & S6). unfold sized. cbn. rewrite poke_length by lia. auto 10.
      + destruct Z as (R & RB & _ & _ & _ & _ & _ & S1). cells.
        * cbn. rewrite poke_nth, Nat.eqb_refl by lia. reflexivity.
        * rewrite poke_nth by lia. destruct (Nat.eqb_spec i0 i); [congruence|reflexivity].
  Qed.
  Lemma performs_eq a i j b : performs a (set_eq i j b) [(CEq i j, VBiq b)] [].
  Proof.
    apply performs_back with (f := fun o => MkOuts (o_routing o) (o_gains o) (o_delays o)
      (match nth_error (o_eqs o) i with Some row => poke (o_eqs o) i (poke row j b) | None => o_eqs o end) (o_late_gains o) (o_late_delays o)).
    - intros s ((_ & _ & _ & _ & S3 & S4 & _) & _) D. apply dom_one in D. cbn [dom] in D. destruct D as [D1 D2].
      unfold set_eq. destruct (nth_error (o_eqs (s_back s)) i) as [row|] eqn:E.
      + rewrite Forall_forall in S4. rewrite (S4 row) by now apply nth_error_In in E.
        destruct (Nat.ltb_spec j sections); [reflexivity|lia].
      + apply nth_error_None in E. lia.
    - intros o p Z Lp D. apply dom_one in D. cbn [dom] in D. destruct D as [D1 D2].
      destruct Z as (R & RB & S1 & S2 & S3 & S4 & S5 & S6).
      destruct (nth_error (o_eqs o) i) as [row|] eqn:E; [|apply nth_error_None in E; lia].
      assert (Lr : length row = sections) by (rewrite Forall_forall in S4; apply S4; now apply nth_error_In in E).
      split.
      + unfold sized. cbn [o_gains o_delays o_eqs o_late_gains o_late_delays o_routing].
        rewrite poke_length by lia. repeat (split; [assumption|]). split; [|auto].
        apply Forall_forall. intros r Hr. apply In_nth_error in Hr as [k Hk]. rewrite poke_nth in Hk by lia.
        destruct (Nat.eqb_spec k i) as [E1|N].
        * apply Some_inj in Hk. subst r. rewrite poke_length; lia.
        * rewrite Forall_forall in S4. apply S4. now apply nth_error_In in Hk.
      + cells.
        * cbn. rewrite poke_nth, Nat.eqb_refl by lia. rewrite poke_nth, Nat.eqb_refl by lia. reflexivity.
        * rewrite poke_nth by lia. destruct (Nat.eqb_spec i0 i) as [->|N'].
          -- rewrite E, poke_nth by lia. destruct (Nat.eqb_spec j0 j); [congruence|reflexivity].
          -- reflexivity.
  Qed.
  Lemma performs_pan a i v : performs a (set_panning i v) [(CPan i, VNum v)] [].
  Proof.
    intros s A [(Z1 & Z2 & Z3) G] D _. apply dom_one in D. cbn [dom] in D.
    exists (with_panning s (poke (s_panning s) i v)). split; [|split; [|split; [exact A|split; [reflexivity|split; [reflexivity|]]]]].
    - unfold set_panning. rewrite Z3. destruct (Nat.ltb_spec i (c_speakers c * c_stride c)); [reflexivity|lia].
    - split; [|exact G]. split; [exact Z1|]. split; [exact Z2|]. cbn. rewrite poke_length; lia.
    - cells.
      + cbn. rewrite poke_nth, Nat.eqb_refl by lia. reflexivity.
      + cbn. rewrite poke_nth by lia. destruct (Nat.eqb_spec i0 i); [congruence|reflexivity].
  Qed.

  Lemma route_prel t m ch : prel t m -> route t ch = m ch.
  Proof. intros R. unfold route. rewrite (prel_find t m _ _ R). destruct (m ch); reflexivity. Qed.
  Lemma performs_add a input ch :
    performs a (set_routing (fun t => p_add t (MkEntry input ch))) [(CRoute ch, VIn (Some input))] [].
  Proof.
    apply performs_back with (f := fun o => MkOuts (p_add (o_routing o) (MkEntry input ch)) (o_gains o) (o_delays o) (o_eqs o) (o_late_gains o) (o_late_delays o)).
    - reflexivity.
    - intros o p Z Lp D. apply dom_one in D. cbn [dom] in D.
      destruct Z as ((m & R) & RB & S1 & S2 & S3 & S4 & S5 & S6).
      pose proof (prel_add _ _ input ch R) as R'. split.
      + unfold sized. cbn [o_gains o_delays o_eqs o_late_gains o_late_delays o_routing]. split; [eauto|]. split; [|auto 10].
        apply Forall_forall. intros [i' o'] H. apply (prel_in _ _ i' o' R') in H. cbn [e_out]. unfold mset in H.
        destruct (Nat.eqb_spec o' ch) as [E1|N]; [now subst o'|].
        apply (prel_in _ _ i' o' R) in H. rewrite Forall_forall in RB. now apply (RB _ H).
      + cells.
        * cbn. rewrite (route_prel _ _ _ R'). unfold mset. now rewrite Nat.eqb_refl.
        * rewrite (route_prel _ _ _ R'), (route_prel _ _ _ R). unfold mset.
          destruct (Nat.eqb_spec i ch); [congruence|reflexivity].
  Qed.
  Lemma performs_remove a ch :
    performs a (set_routing (fun t => fst (p_remove invalid t ch))) [(CRoute ch, VIn None)] [].
  Proof.
    apply performs_back with (f := fun o => MkOuts (fst (p_remove invalid (o_routing o) ch)) (o_gains o) (o_delays o) (o_eqs o) (o_late_gains o) (o_late_delays o)).
    - reflexivity.
    - intros o p Z Lp D. apply dom_one in D. cbn [dom] in D.
      destruct Z as ((m & R) & RB & S1 & S2 & S3 & S4 & S5 & S6).
      assert (R' : prel (fst (p_remove invalid (o_routing o) ch)) (mset Nat.eqb m ch None)).
      { unfold p_remove. rewrite (prel_find _ _ invalid ch R). destruct (m ch) as [i|] eqn:E; cbn [option_map fst].
        - apply (prel_erase _ _ (MkEntry i ch) R).
        - destruct R as [R1 R2]. split; [exact R1|]. intros e. specialize (R2 e).
          unfold mset. destruct (Nat.eqb_spec e ch) as [->|N]; [|exact R2]. now rewrite E in R2. }
      split.
      + unfold sized. cbn [o_gains o_delays o_eqs o_late_gains o_late_delays o_routing]. split; [eauto|]. split; [|auto 10].
        apply Forall_forall. intros [i' o'] H. apply (prel_in _ _ i' o' R') in H. cbn [e_out]. unfold mset in H.
        destruct (Nat.eqb_spec o' ch) as [E1|N]; [now subst o'|].
        apply (prel_in _ _ i' o' R) in H. rewrite Forall_forall in RB. now apply (RB _ H).
      + cells.
        * cbn. rewrite (route_prel _ _ _ R'). unfold mset. now rewrite Nat.eqb_refl.
        * rewrite (route_prel _ _ _ R'), (route_prel _ _ _ R). unfold mset.
          destruct (Nat.eqb_spec i ch); [congruence|reflexivity].
  Qed.
  Lemma send_logged (s : state) ch l p : logged s -> nine l -> nth_error (s_previous s) ch = Some p ->
    logged (MkState (s_alloc s) (poke (s_previous s) ch l) (s_back s) (s_front s) (s_panning s) (s_sent s ++ [(ch, l)])).
  Proof.
    intros [L1 L2] N E.
    assert (Hc : ch < length (s_previous s)) by (apply nth_error_Some; congruence).
    split; cbn [s_previous s_sent]; [rewrite poke_length; lia|].
    intros k x. rewrite poke_nth by exact Hc. rewrite last_sent_app. cbn [last_sent].
    destruct (Nat.eqb_spec k ch) as [->|Nk].
    - rewrite Nat.eqb_refl. intros [= <-]. now split.
    - intros H. destruct (Nat.eqb_spec ch k); [congruence|]. now apply L2.
  Qed.
  Lemma performs_send a ch l : performs a (send_late ch l) [] [(ch, l)].
  Proof.
    intros s A [Z G] _ D. destruct (D ch l (or_introl eq_refl)) as [D1 D2].
    unfold send_late. cbn [fold_left send_step fst snd].
    destruct (nth_error (s_previous s) ch) as [p|] eqn:E.
    2:{ apply nth_error_None in E. destruct G as [G _]. lia. }
    assert (W : forall o p, written [] o o p p) by (intros o p0 y; right; split; [intros v []|reflexivity]).
    destruct (late_equal p l) eqn:Q.
    - exists s. split; [reflexivity|]. split; [now split|]. split; [exact A|]. now repeat split.
    - eexists. split; [reflexivity|]. split; [|split; [exact A|split; [reflexivity|split; [reflexivity|apply W]]]].
      split; [exact Z|]. now apply send_logged with (p := p).
  Qed.

  (** *** Compound statements *)
  Lemma performs_copy a src : forall i st,
    performs a (copy_strided src i st) (map (fun kv => (CPan (fst kv * st + i), VNum (snd kv))) (combine (seq 0 (length src)) src)) [].
  Proof.
    assert (G : forall src i st n, performs a (copy_strided src (n * st + i) st)
      (map (fun kv => (CPan (fst kv * st + i), VNum (snd kv))) (combine (seq n (length src)) src)) []).
    { clear src. induction src as [|v src IH]; intros i st n; cbn [copy_strided length seq combine map]; [apply performs_skip|].
      change (?x :: ?l) with ([x] ++ l). change (@nil (nat * late)) with (@nil (nat * late) ++ []).
      apply performs_then; [apply performs_pan|]. replace (n * st + i + st) with (S n * st + i) by lia. apply IH. }
    intros i st. apply (G src i st 0).
  Qed.
  Lemma performs_fill a v n : forall i st,
    performs a (fill_strided v i st n) (map (fun k => (CPan (k * st + i), VNum v)) (seq 0 n)) [].
  Proof.
    assert (G : forall n i st m, performs a (fill_strided v (m * st + i) st n)
      (map (fun k => (CPan (k * st + i), VNum v)) (seq m n)) []).
    { clear n. induction n as [|n IH]; intros i st m; cbn [fill_strided seq map]; [apply performs_skip|].
      change (?x :: ?l) with ([x] ++ l). change (@nil (nat * late)) with (@nil (nat * late) ++ []).
      apply performs_then; [apply performs_pan|]. replace (m * st + i + st) with (S m * st + i) by lia. apply IH. }
    intros i st. apply (G n i st 0).
  Qed.
  Lemma flat_map_nil {X Y} (l : list X) : flat_map (fun _ => @nil Y) l = [].
  Proof. induction l; auto. Qed.
  Lemma performs_each0 {X} a (f : X -> act) (ws : X -> list (cell * val)) l :
    (forall x, In x l -> performs a (f x) (ws x) []) -> performs a (each f l) (flat_map ws l) [].
  Proof. intros H. rewrite <- (flat_map_nil (Y := nat * late) l). now apply performs_each. Qed.
  Lemma performs_then0 a x y ws1 ws2 ls : performs a x ws1 [] -> performs a y ws2 ls -> performs a (andthen x y) (ws1 ++ ws2) ls.
  Proof. intros H1 H2. apply (performs_then a x y ws1 [] ws2 ls H1 H2). Qed.

  (** What is written for a slot with a reflection, or without *)
  Definition slot_writes (i : nat) (r : option (@reflection B P)) : list (cell * val) :=
    [(CGain i, VNum (match r with Some r => r_level r | None => Q2Qc 0 end));
     (CDelay i, VNum (match r with Some r => r_delay r | None => Q2Qc 0 end))]
    ++ map (fun jb => (CEq i (fst jb), VBiq (snd jb)))
         (combine (seq 0 sections) (match r with Some r => r_filters r | None => repeat flat sections end))
    ++ map (fun kv => (CPan (fst kv * c_stride c + i), VNum (snd kv)))
         (combine (seq 0 (c_speakers c)) (match r with Some r => vbap (r_position r) | None => repeat (Q2Qc 0) (c_speakers c) end)).

  (** The order and multiplicity of the writes do not matter. *)
  Lemma performs_ws a x ws ws' ls : performs a x ws ls -> (forall e, In e ws <-> In e ws') -> performs a x ws' ls.
  Proof.
    intros H E s A I D L. destruct (H s A I) as (s' & E1 & I1 & A1 & F1 & S1 & W1); [|exact L|].
    - intros y v Hy. apply (D y v). now apply E.
    - exists s'. repeat (split; [assumption|]). intros y. destruct (W1 y) as [(v & Iv & Ev)|[Nv Ev]].
      + left. exists v. split; [now apply E|exact Ev].
      + right. split; [|exact Ev]. intros v Hv. apply (Nv v). now apply E.
  Qed.

  Lemma in_combine_seq : forall {X} (l : list X) n k v, In (k, v) (combine (seq n (length l)) l) <-> n <= k /\ nth_error l (k - n) = Some v.
  Proof using. clear.
    intros X l n k v. revert n. induction l as [|x l IH]; intros n; cbn [length seq combine In].
    - split; [easy|]. intros [_ H]. now destruct (k - n).
    - rewrite IH. split.
      + intros [[= -> ->]|[H1 H2]].
        * split; [lia|]. now rewrite Nat.sub_diag.
        * split; [lia|]. replace (k - n) with (S (k - S n)) by lia. exact H2.
      + intros [H1 H2]. destruct (Nat.eq_dec k n) as [->|N].
        * left. rewrite Nat.sub_diag in H2. cbn in H2. congruence.
        * right. split; [lia|]. replace (k - n) with (S (k - S n)) in H2 by lia. exact H2.
  Qed.

  Lemma nth_error_repeat' : forall {X} (x : X) n k v, nth_error (repeat x n) k = Some v <-> k < n /\ v = x.
  Proof using. clear.
    intros X x n k v. revert k. induction n as [|n IH]; intros [|k]; cbn [repeat nth_error].
    - split; [easy|lia].
    - split; [easy|lia].
    - split; [intros [= <-]; split; [lia|reflexivity]|]. now intros [_ ->].
    - rewrite IH. split; intros [H1 H2]; (split; [lia|exact H2]).
  Qed.
  Lemma performs_put a i r : length (r_filters r) = sections -> performs a (put_reflection vbap c i r) (slot_writes i (Some r)) [].
  Proof.
    intros Lf. unfold put_reflection, slot_writes.
    eapply performs_ws.
    - apply performs_then0; [apply performs_copy|]. apply performs_then0.
      + apply (performs_each0 a) with (ws := fun j => match nth_error (r_filters r) j with Some b => [(CEq i j, VBiq b)] | None => [] end).
        intros j Hj. apply in_seq in Hj. destruct (nth_error (r_filters r) j) as [b|] eqn:E.
        * apply performs_value with (x := b); [|apply performs_eq].
          unfold reflection_filter. destruct (Nat.leb_spec sections j); [lia|]. now rewrite E.
        * apply nth_error_None in E. lia.
      + apply performs_then0; [apply performs_gain|apply performs_delay].
    - intros [y v]. rewrite !in_app_iff. rewrite gains. rewrite in_flat_map.
      assert (Q : (exists x, In x (seq 0 sections) /\ In (y, v) (match nth_error (r_filters r) x with Some b => [(CEq i x, VBiq b)] | None => [] end))
                  <-> In (y, v) (map (fun jb => (CEq i (fst jb), VBiq (snd jb))) (combine (seq 0 sections) (r_filters r)))).
      { rewrite in_map_iff. rewrite <- Lf. split.
        - intros (j & Hj & H). destruct (nth_error (r_filters r) j) as [b|] eqn:E; [|easy]. destruct H as [H|[]].
          exists (j, b). split; [exact H|]. apply in_combine_seq. split; [lia|]. now rewrite Nat.sub_0_r.
        - intros ([j b] & H & Hc). apply in_combine_seq in Hc as [_ Hc]. rewrite Nat.sub_0_r in Hc. exists j. split.
          + apply in_seq. assert (j < length (r_filters r)) by (apply nth_error_Some; congruence). lia.
          + rewrite Hc. now left. }
      rewrite Q. cbn [In]. tauto.
  Qed.
  Lemma clear_writes i (l : list (cell * val)) (H : forall e, In e l <-> In e
      (flat_map (fun j => [(CEq i j, VBiq flat)]) (seq 0 sections)
       ++ [(CGain i, VNum (Q2Qc 0)); (CDelay i, VNum (Q2Qc 0))]
       ++ map (fun k => (CPan (k * c_stride c + i), VNum (Q2Qc 0))) (seq 0 (c_speakers c)))) :
    forall e, In e l <-> In e (slot_writes i None).
  Proof.
    intros [y v]. rewrite H. unfold slot_writes. rewrite !in_app_iff, in_flat_map, !in_map_iff.
    assert (Q1 : (exists x, In x (seq 0 sections) /\ In (y, v) [(CEq i x, VBiq flat)]) <->
      (exists x, (CEq i (fst x), VBiq (snd x)) = (y, v) /\ In x (combine (seq 0 sections) (repeat flat sections)))).
    { split.
      - intros (j & Hj & [E|[]]). exists (j, flat). split; [exact E|].
        rewrite <- (repeat_length flat sections) at 1. apply in_combine_seq. split; [lia|]. rewrite Nat.sub_0_r.
        apply nth_error_repeat'. apply in_seq in Hj. split; [lia|reflexivity].
      - intros ([j b] & E & Hj). rewrite <- (repeat_length flat sections) in Hj at 1. apply in_combine_seq in Hj as [_ Hj].
        rewrite Nat.sub_0_r in Hj. apply nth_error_repeat' in Hj as [Hj ->]. exists j. split; [apply in_seq; lia|now left]. }
    assert (Q2 : (exists x, (CPan (x * c_stride c + i), VNum (Q2Qc 0)) = (y, v) /\ In x (seq 0 (c_speakers c))) <->
      (exists x, (CPan (fst x * c_stride c + i), VNum (snd x)) = (y, v) /\ In x (combine (seq 0 (c_speakers c)) (repeat (Q2Qc 0) (c_speakers c))))).
    { split.
      - intros (j & E & Hj). exists (j, Q2Qc 0). split; [exact E|].
        rewrite <- (repeat_length (Q2Qc 0) (c_speakers c)) at 1. apply in_combine_seq. split; [lia|]. rewrite Nat.sub_0_r.
        apply nth_error_repeat'. apply in_seq in Hj. split; [lia|reflexivity].
      - intros ([j b] & E & Hj). rewrite <- (repeat_length (Q2Qc 0) (c_speakers c)) in Hj at 1. apply in_combine_seq in Hj as [_ Hj].
        rewrite Nat.sub_0_r in Hj. apply nth_error_repeat' in Hj as [Hj ->]. exists j. split; [exact E|apply in_seq; lia]. }
    rewrite Q1, Q2. cbn [In]. tauto.
  Qed.
  Lemma flat_single {X Y} (f : X -> Y) l : flat_map (fun x => [f x]) l = map f l.
  Proof. induction l; cbn; congruence. Qed.
  Lemma performs_clear a i : performs a (clear_reflection flat c i) (slot_writes i None) [].
  Proof.
    unfold clear_reflection. eapply performs_ws.
    - apply performs_then0; [apply (performs_each0 a); intros j _; apply performs_eq|].
      apply performs_then0; [apply performs_gain|]. apply performs_then0; [apply performs_delay|].
      apply (performs_each0 a). intros k _. apply performs_pan.
    - apply clear_writes. intros e. rewrite flat_single. rewrite !in_app_iff. cbn [In]. rewrite flat_single. tauto.
  Qed.
  Lemma performs_zero a i : performs a (zero_reflection flat c i) (slot_writes i None) [].
  Proof.
    unfold zero_reflection. eapply performs_ws.
    - apply performs_then0; [apply performs_fill|]. apply performs_then0; [apply (performs_each0 a); intros j _; apply performs_eq|].
      apply performs_then0; [apply performs_gain|apply performs_delay].
    - apply clear_writes. intros e. rewrite !in_app_iff. cbn [In]. tauto.
  Qed.

  (** What is written for a channel *)
  Definition channel_writes (ch : nat) (x : option (nat * list (@reflection B P))) : list (cell * val) :=
    [(CRoute ch, VIn (option_map fst x)); (CLateD ch, VNum (Q2Qc 0));
     (CLateG ch, VNum (match x with Some _ => Q2Qc 1 | None => Q2Qc 0 end))]
    ++ flat_map (fun k => slot_writes (ch * c_reflections c + k)
                   (match x with Some (_, rs) => nth_error rs k | None => None end)) (seq 0 (c_reflections c)).

  Lemma performs_puts a rs : Forall (fun r => length (r_filters r) = sections) rs ->
    forall i, performs a (put_reflections vbap c i rs) (flat_map (fun k => slot_writes (i + k) (nth_error rs k)) (seq 0 (length rs))) [].
  Proof.
    intros F. assert (G : forall rs, Forall (fun r => length (r_filters r) = sections) rs -> forall i n pre, length pre = n ->
      performs a (put_reflections vbap c (i + n) rs) (flat_map (fun k => slot_writes (i + k) (nth_error (pre ++ rs) k)) (seq n (length rs))) []).
    { clear F rs. induction rs as [|r rs IH]; intros F i n pre E; cbn [put_reflections length seq flat_map]; [apply performs_skip|].
      inversion F as [|? ? Fr Frs]; subst. apply performs_then0.
      - rewrite nth_error_app2, Nat.sub_diag by lia. cbn [nth_error]. now apply performs_put.
      - specialize (IH Frs i (S (length pre)) (pre ++ [r])). rewrite <- app_assoc in IH. cbn [app] in IH.
        rewrite Nat.add_succ_r in IH. apply IH. rewrite app_length. cbn. lia. }
    intros i. specialize (G rs F i 0 [] eq_refl). rewrite Nat.add_0_r in G. exact G.
  Qed.
  Lemma performs_single a ch input rs l : Forall (fun r => length (r_filters r) = sections) rs -> length rs <= c_reflections c ->
    performs a (andthen (set_routing (fun t => p_add t (MkEntry input ch))) (process_single flat vbap c ch rs l))
      (channel_writes ch (Some (input, rs))) [(ch, l)].
  Proof.
    intros F Le. unfold process_single. destruct (Nat.ltb_spec (c_reflections c) (length rs)); [lia|].
    eapply performs_ws.
    - apply performs_then0; [apply performs_add|]. apply performs_then0; [now apply performs_puts|].
      apply performs_then0; [apply (performs_each0 a); intros k _; apply performs_clear|].
      apply performs_then0; [apply performs_late_delay|]. apply performs_then0; [apply performs_late_gain|apply performs_send].
    - intros e. unfold channel_writes. rewrite !in_app_iff. cbn [option_map fst].
      replace (seq 0 (c_reflections c)) with (seq 0 (length rs) ++ seq (length rs) (c_reflections c - length rs)).
      2:{ rewrite <- seq_app. f_equal. lia. }
      rewrite flat_map_app, in_app_iff.
      assert (Q : In e (flat_map (fun x => slot_writes (ch * c_reflections c + x) None) (seq (length rs) (c_reflections c - length rs))) <->
                  In e (flat_map (fun k => slot_writes (ch * c_reflections c + k) (nth_error rs k)) (seq (length rs) (c_reflections c - length rs)))).
      { rewrite !in_flat_map. split; intros (k & Hk & H'); exists k; (split; [exact Hk|]); apply in_seq in Hk;
          rewrite (proj2 (nth_error_None rs k)) in * by lia; exact H'. }
      rewrite Q. cbn [In]. tauto.
  Qed.
  Lemma performs_none a ch :
    performs a (andthen (set_routing (fun t => fst (p_remove invalid t ch))) (clear_single flat c ch))
      (channel_writes ch None) [(ch, late_default)].
  Proof.
    unfold clear_single. eapply performs_ws.
    - apply performs_then0; [apply performs_remove|].
      apply performs_then0; [apply (performs_each0 a); intros k _; apply performs_zero|].
      apply performs_then0; [apply performs_late_delay|]. apply performs_then0; [apply performs_late_gain|].
      apply performs_value with (x := late_default); [reflexivity|apply performs_send].
    - intros e. unfold channel_writes. rewrite !in_app_iff. cbn [option_map fst In]. tauto.
  Qed.
End Effects.
