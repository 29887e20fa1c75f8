(** C43 and C50: tracking messages and the compensation of the listener's position. *)
From Verif Require Import Base QuaternionModel QuaternionProofs ListenerModel.
From Coq Require Import Reals Lra Sorted.
Local Open Scope R_scope.
Local Open Scope res_scope.

Section Decoder.
  Context {Msg : Type} (parse : Msg -> res (listener R)) (uintMax : nat).
  Variable offset : pos3 R.
  Variable rotation : quat R.
  Local Notation decode := (decode parse uintMax offset rotation).
  Local Notation translate := (translatePosition offset rotation).

  (** The positions received: the messages that can be parsed, in order. *)
  Fixpoint received (msgs : list Msg) : list (listener R) :=
    match msgs with
    | [] => []
    | m :: r => match parse m with Ok l => l :: received r | _ => received r end
    end.

  Definition pick (s : scan) (l : listener R) : scan :=
    if Nat.leb (l_face l) (s_face s) && Nat.leb (s_time s) (l_time l) then Scan l (l_face l) (l_time l) else s.
  Lemma scan_received msgs s : fold_left (scan_step parse) msgs s = fold_left pick (received msgs) s.
  Proof using.
    revert s. induction msgs as [|m r IH]; intros s; [reflexivity|]. cbn [fold_left received].
    assert (E : scan_step parse s m = match parse m with Ok l => pick s l | _ => s end).
    { unfold scan_step, pick. destruct (parse m); try reflexivity.
      destruct (Nat.leb (l_face a) (s_face s)); [|reflexivity]. now destruct (Nat.leb (s_time s) (l_time a)). }
    rewrite IH, E. now destruct (parse m).
  Qed.

  Lemma faces_bounded msgs : Forall (fun l => (l_face l <= uintMax)%nat) (received msgs) ->
    forall l, In l (received msgs) -> (l_face l <= uintMax)%nat.
  Proof using. intros F l I. now apply (proj1 (Forall_forall _ _) F). Qed.

  (** State of the scan: nothing accepted, or a received position *)
  Definition inv (ls : list (listener R)) (s : scan) : Prop :=
    s = scan0 uintMax \/ (In (s_found s) ls /\ s_face s = l_face (s_found s) /\ s_time s = l_time (s_found s)).
  Lemma pick_inv ls pre s : fold_left pick ls (scan0 uintMax) = s -> pre = ls -> inv pre s.
  Proof using.
    intros <- ->. induction ls as [|l ls IH] using rev_ind; [now left|].
    rewrite fold_left_app. cbn [fold_left]. set (s := fold_left pick ls (scan0 uintMax)) in *.
    unfold pick. destruct (Nat.leb (l_face l) (s_face s) && Nat.leb (s_time s) (l_time l)).
    - right. cbn. split; [apply in_or_app; right; now left|auto].
    - destruct IH as [E|(I & A & B)]; [now left|]. right. split; [apply in_or_app; now left|auto].
  Qed.

  (** Whatever is published is one of the positions received in the block, with a face id
      below the maximum, moved to the room's coordinates; corrupt messages have no effect;
      nothing is published if no valid message arrived. *)
  Theorem C43_published (msgs : list Msg) :
    (forall m, decode msgs = Some m -> exists l, In l (received msgs) /\ l_face l <> uintMax /\ m = translate l) /\
    (forall msgs', received msgs' = received msgs -> decode msgs' = decode msgs) /\
    (received msgs = [] -> decode msgs = None).
  Proof using.
    split; [|split].
    - intros m H. unfold ListenerModel.decode in H. rewrite scan_received in H.
      set (s := fold_left pick (received msgs) (scan0 uintMax)) in *.
      destruct (Nat.eqb (s_face s) uintMax) eqn:E; [discriminate|]. apply Some_inj in H. apply Nat.eqb_neq in E.
      destruct (pick_inv (received msgs) _ s eq_refl eq_refl) as [Z|(I & A & B)]; [rewrite Z in E; now elim E|].
      exists (s_found s). split; [assumption|]. split; [congruence|congruence].
    - intros msgs' E. unfold ListenerModel.decode. now rewrite !scan_received, E.
    - intros E. unfold ListenerModel.decode. rewrite scan_received, E. cbn. now rewrite Nat.eqb_refl.
  Qed.

  (** The position wanted: the newest one (the last, among equally new ones) of the
      smallest face id. *)
  Definition wanted (ls : list (listener R)) (l : listener R) : Prop :=
    exists pre post, ls = pre ++ l :: post /\
      (forall x, In x ls -> (l_face l <= l_face x)%nat) /\
      (forall x, In x pre -> l_face x = l_face l -> (l_time x <= l_time l)%nat) /\
      (forall x, In x post -> l_face x = l_face l -> (l_time x < l_time l)%nat).

  (** If no message of a smaller face id is older than an earlier message of a larger one
      (in particular if messages arrive in the order of their time stamps, or concern a
      single face), the newest position of the smallest face id is published. *)
  Definition ordered (ls : list (listener R)) : Prop :=
    forall pre x mid y post, ls = pre ++ x :: mid ++ y :: post ->
      (l_face y < l_face x)%nat -> (l_time x <= l_time y)%nat.

  Lemma ordered_front ls l : ordered (ls ++ [l]) -> ordered ls.
  Proof using.
    intros H pre x mid y post E. apply (H pre x mid y (post ++ [l])).
    rewrite E, <- !app_assoc. cbn. now rewrite <- app_assoc.
  Qed.
  Lemma ordered_last ls l x : ordered (ls ++ [l]) -> In x ls -> (l_face l < l_face x)%nat -> (l_time x <= l_time l)%nat.
  Proof using.
    intros H I. apply in_split in I as (p1 & p2 & ->). apply (H p1 x p2 l []).
    now rewrite <- !app_assoc.
  Qed.
  Lemma pick_wanted ls : ordered ls -> ls <> [] -> Forall (fun l => (l_face l <= uintMax)%nat) ls ->
    let s := fold_left pick ls (scan0 uintMax) in
    wanted ls (s_found s) /\ s_face s = l_face (s_found s) /\ s_time s = l_time (s_found s).
  Proof using.
    induction ls as [|l ls IH] using rev_ind; [easy|]. intros O _ F s.
    apply Forall_app in F as [F Fl]. apply Forall_inv in Fl.
    unfold s. rewrite fold_left_app. cbn [fold_left]. clear s.
    destruct ls as [|l0 ls0] eqn:El.
    { cbn. unfold pick, scan0. cbn [s_face s_time]. rewrite (proj2 (Nat.leb_le _ _) Fl). cbn.
      split; [|auto]. exists [], []. cbn. repeat split; try tauto. intros x [<-|[]]. lia. }
    rewrite <- El in *. assert (Nn : ls <> []) by (subst ls; discriminate). clear El l0 ls0.
    specialize (IH (ordered_front _ _ O) Nn F). cbv zeta in IH.
    set (s := fold_left pick ls (scan0 uintMax)) in *.
    destruct IH as ((pre & post & E & Mn & Pr & Po) & Ef & Et).
    assert (Inf : In (s_found s) ls) by (rewrite E; apply in_or_app; right; now left).
    unfold pick. rewrite Ef, Et.
    destruct (Nat.leb (l_face l) (l_face (s_found s))) eqn:E1.
    2: { apply Nat.leb_gt in E1. cbn [andb]. split; [|auto].
         exists pre, (post ++ [l]). split; [rewrite E, <- app_assoc; reflexivity|]. split; [|split; [assumption|]].
         - intros x I. apply in_app_or in I as [I|[<-|[]]]; [now apply Mn|lia].
         - intros x I J. apply in_app_or in I as [I|[<-|[]]]; [now apply Po|lia]. }
    apply Nat.leb_le in E1. cbn [andb].
    destruct (Nat.leb (l_time (s_found s)) (l_time l)) eqn:E2; cbn [s_found s_face s_time].
    - apply Nat.leb_le in E2. split; [|auto]. exists ls, []. split; [reflexivity|]. split; [|split; [|easy]].
      + intros x I. apply in_app_or in I as [I|[<-|[]]]; [|lia]. specialize (Mn x I). lia.
      + intros x I J. assert (Hm := Mn x I). assert (l_face x = l_face (s_found s)) by lia.
        rewrite E in I. apply in_app_or in I as [I|[<-|I]]; [|assumption|].
        * specialize (Pr x I H). lia.
        * specialize (Po x I H). lia.
    - apply Nat.leb_gt in E2. split; [|auto].
      assert (Eq : l_face l = l_face (s_found s)).
      { destruct (Nat.eq_dec (l_face l) (l_face (s_found s))) as [|N]; [assumption|].
        assert (T := ordered_last ls l _ O Inf ltac:(lia)). lia. }
      exists pre, (post ++ [l]). split; [rewrite E, <- app_assoc; reflexivity|]. split; [|split; [assumption|]].
      + intros x I. apply in_app_or in I as [I|[<-|[]]]; [now apply Mn|lia].
      + intros x I J. apply in_app_or in I as [I|[<-|[]]]; [now apply Po|assumption].
  Qed.

  Theorem C43_best_face_partial (msgs : list Msg) :
    ordered (received msgs) -> Forall (fun l => (l_face l < uintMax)%nat) (received msgs) -> received msgs <> [] ->
    exists l, wanted (received msgs) l /\ decode msgs = Some (translate l).
  Proof using.
    intros O F N.
    assert (F' : Forall (fun l => (l_face l <= uintMax)%nat) (received msgs)).
    { eapply Forall_impl; [|exact F]. cbn. lia. }
    pose proof (pick_wanted _ O N F') as P. cbv zeta in P. destruct P as (W & Ef & _).
    unfold ListenerModel.decode. rewrite scan_received. eexists. split; [exact W|].
    destruct W as (pre & post & E & _).
    assert (L : (l_face (s_found (fold_left pick (received msgs) (scan0 uintMax))) < uintMax)%nat).
    { apply (proj1 (Forall_forall _ _) F). rewrite E at 2. apply in_or_app. right. now left. }
    rewrite Ef. now rewrite (proj2 (Nat.eqb_neq _ _)) by lia.
  Qed.
  (** The two circumstances named above do imply the hypothesis. *)
  Lemma ordered_by_time ls : StronglySorted le (map l_time ls) -> ordered ls.
  Proof using.
    intros S pre x mid y post -> _. rewrite map_app in S. cbn [map] in S. rewrite map_app in S. cbn [map] in S.
    induction (map l_time pre) as [|a r IH]; cbn [app] in S; apply StronglySorted_inv in S as [S F]; [|auto].
    apply (proj1 (Forall_forall _ _) F). apply in_or_app. right. now left.
  Qed.
  Lemma ordered_single_face ls f : Forall (fun l => l_face l = f) ls -> ordered ls.
  Proof using.
    intros F pre x mid y post -> L. rewrite Forall_forall in F.
    assert (l_face x = f) by (apply F, in_or_app; right; now left).
    assert (l_face y = f) by (apply F, in_or_app; right; right; apply in_or_app; right; now left). lia.
  Qed.
End Decoder.
Print Assumptions C43_published.
Print Assumptions C43_best_face_partial.

(** In general it is false: a message of a smaller face id is ignored if it is older than
    one of a larger face id. *)
Definition at_time (face time : nat) : listener R := Lst (P3 0 0 0) (Q4 1 0 0 0) time face 1.
Theorem C43_best_face_refuted :
  exists (msgs : list (listener R)) (l : listener R),
    wanted (received Ok msgs) l /\ l_face l = 1%nat /\
    exists m, decode Ok 100 (P3 0 0 0) (Q4 1 0 0 0) msgs = Some m /\ l_face m = 2%nat.
Proof.
  exists [at_time 2 5; at_time 1 3], (at_time 1 3). split.
  { exists [at_time 2 5], []. cbn. repeat split; try tauto.
    - intros x [<-|[<-|[]]]; cbn; lia.
    - intros x [<-|[]] E; cbn in E; lia. }
  split; [reflexivity|]. eexists. split; reflexivity.
Qed.
Print Assumptions C43_best_face_refuted.
(** A message with the largest possible face id can moreover suppress a valid one. *)
Theorem C43_suppressed_refuted (uintMax : nat) :
  (0 < uintMax)%nat ->
  exists (msgs : list (listener R)) (l : listener R),
    wanted (received Ok msgs) l /\ (l_face l < uintMax)%nat /\
    decode Ok uintMax (P3 0 0 0) (Q4 1 0 0 0) msgs = None.
Proof.
  intros H. exists [at_time uintMax 5; at_time 0 3], (at_time 0 3). split.
  { exists [at_time uintMax 5], []. cbn. repeat split; try tauto.
    - intros x [<-|[<-|[]]]; cbn; lia.
    - intros x [<-|[]] E; cbn in E; lia. }
  split; [assumption|]. unfold decode. cbn. rewrite Nat.leb_refl. cbn. now rewrite Nat.eqb_refl.
Qed.
Print Assumptions C43_suppressed_refuted.

Example C43_example :
  let msgs := [Ok (at_time 3 1); Throw RuntimeError; Ok (at_time 1 2); Ok (at_time 3 4); Ok (at_time 1 4)] in
  ordered (received (fun m => m) msgs) /\ received (fun m => m) msgs <> [] /\
  Forall (fun l => (l_face l < 100)%nat) (received (fun m => m) msgs) /\
  wanted (received (fun m => m) msgs) (at_time 1 4).
Proof.
  cbn. split; [|split; [discriminate|split]].
  - apply ordered_by_time. cbn. repeat constructor.
  - repeat constructor.
  - exists [at_time 3 1; at_time 1 2; at_time 3 4], []. cbn. repeat split; try tauto.
    + intros x [<-|[<-|[<-|[<-|[]]]]]; cbn; lia.
    + intros x [<-|[<-|[<-|[]]]]; cbn; lia.
Qed.

(** ** C50 *)
Lemma vset_ok v i x : (i < length v)%nat -> exists w, vset v i x = Ok w /\ length w = length v /\
  nth_error w i = Some x /\ (forall j, j <> i -> nth_error w j = nth_error v j).
Proof.
  intros H. unfold vset. rewrite (proj2 (Nat.ltb_lt _ _) H). eexists. split; [reflexivity|].
  assert (L : length (firstn i v) = i) by (rewrite firstn_length; lia).
  split; [|split].
  - rewrite app_length, L. cbn [length]. rewrite skipn_length. lia.
  - rewrite nth_error_app2, L by lia. now rewrite Nat.sub_diag.
  - intros j Hj. destruct (Nat.lt_ge_cases j i) as [G|G].
    + rewrite nth_error_app1 by lia. 
      clear - G H. revert i j G H.
      induction v as [|a v IH]; intros [|i] [|j] G H; cbn in *; try lia; try reflexivity. apply IH; lia.
    + rewrite nth_error_app2, L by lia. destruct (j - i)%nat as [|k] eqn:E; [lia|]. cbn [nth_error].
      replace j with (S i + k)%nat by lia.
      clear. revert v. induction (S i) as [|n IH]; intros v; [reflexivity|]. destruct v; [now destruct k|]. apply IH.
Qed.

Section Radii.
  Variable pos : pos3 R.
  Lemma distance_nonneg l : 0 <= distance l pos.
  Proof. apply sqrt_pos. Qed.
  Lemma radii_ok speakers : forall i v m, (i + length speakers <= length v)%nat -> 0 <= m ->
    exists w mx, radii speakers i pos v m = Ok (w, mx) /\ length w = length v /\ m <= mx /\
      (forall j l, nth_error speakers j = Some l -> nth_error w (i + j) = Some (distance l pos) /\ distance l pos <= mx) /\
      (forall j, (j < i)%nat \/ (i + length speakers <= j)%nat -> nth_error w j = nth_error v j) /\
      (mx = m \/ exists l, In l speakers /\ mx = distance l pos).
  Proof.
    induction speakers as [|l r IH]; intros i v m H Hm; cbn [radii].
    - exists v, m. split; [reflexivity|]. split; [reflexivity|]. split; [lra|]. split; [|split; [auto|now left]].
      intros [|j] l E; discriminate.
    - cbn [length] in H. destruct (vset_ok v i (distance l pos)) as (v' & E & L & Ei & Ej); [lia|].
      rewrite E. cbn [bind]. set (m' := if Rltb m (distance l pos) then distance l pos else m).
      assert (M1 : m <= m' /\ distance l pos <= m' /\ (m' = m \/ m' = distance l pos)).
      { unfold m'. destruct (Rltb m (distance l pos)) eqn:C.
        - apply Rltb_spec in C. repeat split; try lra; auto.
        - apply Rltb_false in C. repeat split; try lra; auto. }
      destruct (IH (S i) v' m') as (w & mx & E2 & L2 & G & A & B & C); [lia|lra|].
      exists w, mx. split; [assumption|]. split; [lia|]. split; [lra|]. split; [|split].
      + intros [|j] l0 F; cbn [nth_error] in F.
        * apply Some_inj in F. subst l0. rewrite Nat.add_0_r. rewrite B by lia. split; [assumption|]. lra.
        * destruct (A j l0 F) as [A1 A2]. rewrite <- A1. split; [f_equal; lia|lra].
      + intros j Hj. cbn [length] in Hj. rewrite B by lia. apply Ej. lia.
      + destruct C as [C|(l0 & I & C)]; [|right; exists l0; split; [now right|assumption]].
        destruct M1 as (_ & _ & [M|M]); [left; lra|]. right. exists l. split; [now left|lra].
  Qed.
  Lemma each_ok f g n : (forall x, f x = Ok (g x)) -> forall i v, (i + n <= length v)%nat ->
    exists w, each f n i v = Ok w /\ length w = length v /\
      (forall j, (i <= j < i + n)%nat -> nth_error w j = option_map g (nth_error v j)) /\
      (forall j, (j < i)%nat \/ (i + n <= j)%nat -> nth_error w j = nth_error v j).
  Proof.
    intros F. induction n as [|n IH]; intros i v H; cbn [each].
    - exists v. split; [reflexivity|]. split; [reflexivity|]. split; [intros; lia|auto].
    - unfold vget. destruct (nth_error v i) as [x|] eqn:E; [|apply nth_error_None in E; lia].
      cbn [bind]. rewrite F. cbn [bind]. destruct (vset_ok v i (g x)) as (v' & E' & L & Ei & Ej); [lia|].
      rewrite E'. cbn [bind]. destruct (IH (S i) v') as (w & Ew & Lw & A & B); [lia|].
      exists w. split; [assumption|]. split; [lia|]. split.
      + intros j Hj. destruct (Nat.eq_dec j i) as [->|N].
        * rewrite B by lia. rewrite Ei, E. reflexivity.
        * rewrite A by lia. now rewrite Ej.
      + intros j Hj. rewrite B by lia. apply Ej. lia.
  Qed.
End Radii.

(** Without virtual loudspeakers, and unless all loudspeakers are at the listener's
    position, the gains are between 0 and 1, with 1 for the farthest loudspeaker; the
    delays are nonnegative, 0 for the farthest; sound from all loudspeakers arrives at the
    same time, and with the same level if it falls off with the distance. *)
Theorem C50_compensation (speakers : list (pos3 R)) (pos : pos3 R) (gains delays : list R) :
  length gains = length speakers -> length delays = length speakers ->
  (exists l, In l speakers /\ distance l pos <> 0) ->
  exists gains' delays' m,
    comp_process (Comp speakers (length speakers)) (Some pos) gains delays = Ok (Some (gains', delays')) /\
    length gains' = length speakers /\ length delays' = length speakers /\
    0 < m /\ (exists l, In l speakers /\ distance l pos = m) /\
    (forall i l, nth_error speakers i = Some l ->
       exists g d, nth_error gains' i = Some g /\ nth_error delays' i = Some d /\
         0 <= g <= 1 /\ 0 <= d /\ distance l pos <= m /\
         (distance l pos = m -> g = 1 /\ d = 0) /\
         distance l pos / 344 + d = m / 344 /\
         (distance l pos <> 0 -> g / distance l pos = 1 / m)).
Proof.
  intros Lg Ld (l0 & I0 & N0). unfold comp_process. cbn [c_regular c_speakers].
  rewrite Lg, Ld, !Nat.eqb_refl. cbn [negb orb]. unfold calcGainComp, calcDelayComp.
  destruct (radii_ok pos speakers 0 gains 0) as (w & m & E & L & M & A & _ & C); [lia|lra|].
  destruct (radii_ok pos speakers 0 delays 0) as (w' & m' & E' & L' & M' & A' & _ & C'); [lia|lra|].
  assert (P0 : distance l0 pos <= m /\ distance l0 pos <= m').
  { apply In_nth_error in I0 as [j F]. split; [apply (A j l0 F)|apply (A' j l0 F)]. }
  pose proof (distance_nonneg pos l0) as D0.
  assert (Em : m' = m).
  { destruct C as [C|(l1 & I1 & C)]; [lra|]. destruct C' as [C'|(l2 & I2 & C')]; [lra|].
    apply In_nth_error in I1 as [j1 F1]. apply In_nth_error in I2 as [j2 F2].
    pose proof (proj2 (A j2 l2 F2)). pose proof (proj2 (A' j1 l1 F1)). lra. }
  subst m'. assert (Pm : 0 < m) by lra.
  rewrite E. cbn [bind fst snd].
  destruct (each_ok (fun x => rdiv x m) (fun x => x / m) (length speakers)
              ltac:(intros; apply rdiv_ok; lra) 0 w) as (g & Eg & Lg' & Ag & _); [lia|].
  rewrite Eg. cbn [bind]. rewrite E'. cbn [bind fst snd].
  destruct (each_ok (fun x => Ok (Rabs (x - m) / 344)) (fun x => Rabs (x - m) / 344) (length speakers)
              ltac:(reflexivity) 0 w') as (d & Ed & Ld' & Ad & _); [lia|].
  rewrite Ed. cbn [bind]. exists g, d, m. split; [reflexivity|]. split; [lia|]. split; [lia|]. split; [assumption|].
  split. { destruct C as [C|(l1 & I1 & C)]; [lra|]. exists l1. auto. }
  intros i l F. destruct (A i l F) as [Ai Bi]. destruct (A' i l F) as [Ai' _]. cbn [Nat.add] in *.
  assert (Hi : (i < length speakers)%nat) by (apply nth_error_Some; congruence).
  exists (distance l pos / m), (Rabs (distance l pos - m) / 344).
  split. { rewrite Ag by lia. now rewrite Ai. }
  split. { rewrite Ad by lia. now rewrite Ai'. }
  pose proof (distance_nonneg pos l) as D.
  assert (Ab : Rabs (distance l pos - m) = m - distance l pos).
  { rewrite Rabs_minus_sym. apply Rabs_pos_eq. lra. }
  rewrite Ab. split.
  { split; [apply Rmult_le_pos; [assumption|left; now apply Rinv_0_lt_compat]|].
    apply (Rmult_le_reg_r m); [assumption|]. unfold Rdiv. rewrite Rmult_assoc, Rinv_l by lra. lra. }
  split; [apply Rmult_le_pos; lra|]. split; [assumption|]. split.
  - intros ->. split; [field; lra|field].
  - split; [field|]. intros Nz. field. lra.
Qed.
Print Assumptions C50_compensation.

(** With a virtual loudspeaker the gain vector, sized for the regular loudspeakers, is
    overrun. *)
Theorem C50_virtual_refuted (pos : pos3 R) (c : compensation) (gains delays : list R) :
  length gains = c_regular c -> length delays = c_regular c -> (c_regular c < length (c_speakers c))%nat ->
  comp_process c (Some pos) gains delays = UB.
Proof.
  intros Lg Ld V. unfold comp_process. rewrite Lg, Ld, !Nat.eqb_refl. cbn [negb orb].
  unfold calcGainComp.
  assert (E : forall sp i v m, (i <= length v)%nat -> (length v < i + length sp)%nat -> radii sp i pos v m = UB).
  { induction sp as [|l r IH]; intros i v m Hi H; cbn [length] in H; [lia|]. cbn [radii].
    destruct (Nat.eq_dec i (length v)) as [->|N].
    - unfold vset. now rewrite Nat.ltb_irrefl.
    - destruct (vset_ok v i (distance l pos)) as (v' & Ev & Lv & _); [lia|]. rewrite Ev. cbn [bind].
      apply IH; lia. }
  now rewrite E by lia.
Qed.
Print Assumptions C50_virtual_refuted.
(** With all loudspeakers at the listener's position the gains are 0/0. *)
Theorem C50_coincident_refuted :
  exists speakers pos gains delays,
    speakers <> [] /\ length gains = length speakers /\ length delays = length speakers /\
    comp_process (Comp speakers (length speakers)) (Some pos) gains delays = UB.
Proof.
  exists [P3 1 2 3], (P3 1 2 3), [0], [0]. split; [discriminate|]. split; [reflexivity|]. split; [reflexivity|].
  unfold comp_process, calcGainComp. cbn.
  assert (D : distance (P3 1 2 3) (P3 1 2 3) = 0).
  { unfold distance. cbn [px py pz]. rewrite !Rminus_eq_0. replace (0 ^ 2 + 0 ^ 2 + 0 ^ 2) with 0 by ring. apply sqrt_0. }
  rewrite D. rewrite (proj2 (Rltb_false 0 0)) by lra. unfold rdiv.
  destruct (Req_EM_T 0 0); [reflexivity|contradiction].
Qed.
Print Assumptions C50_coincident_refuted.

Example C50_example :
  exists l, In l [P3 1 0 0; P3 0 3 4] /\ distance l (P3 0 0 0) <> 0 /\ distance (P3 0 3 4) (P3 0 0 0) = 5.
Proof.
  exists (P3 1 0 0). split; [now left|].
  assert (D : forall x y z r, 0 <= r -> x ^ 2 + y ^ 2 + z ^ 2 = r * r -> distance (P3 x y z) (P3 0 0 0) = r).
  { intros x y z r H E. unfold distance. cbn [px py pz]. rewrite !Rminus_0_r, E. now apply sqrt_square. }
  rewrite (D 1 0 0 1), (D 0 3 4 5); try lra. 
Qed.
