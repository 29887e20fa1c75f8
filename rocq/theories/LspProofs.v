(** The passes of the loader. *)

From Coq Require Import Ascii String NArith Sorted Permutation.
From Verif Require Import Base LspModel LspSpec LspText.
Local Open Scope res_scope.

(** [m] returns a result with [P], or throws; undefined behaviour only under [U]. *)
Definition outcome {A} (U : Prop) (m : res A) (P : A -> Prop) : Prop :=
  match m with Ok a => P a | Throw _ => True | UB => U end.
Lemma outcome_bind {A C} (U : Prop) (m : res A) (f : A -> res C) P Q :
  outcome U m P -> (forall a, m = Ok a -> P a -> outcome U (f a) Q) -> outcome U (bind m f) Q.
Proof. destruct m as [a| |]; cbn [outcome bind]; intros H1 H2; [now apply H2|exact I|exact H1]. Qed.
Lemma outcome_get {A C} (U : Prop) (x : option A) (f : A -> res C) Q :
  (forall a, x = Some a -> outcome U (f a) Q) -> outcome U (bind (get x) f) Q.
Proof. destruct x as [a|]; cbn [get bind outcome]; intros H; [now apply H|exact I]. Qed.
Lemma outcome_impl {A} (U : Prop) (m : res A) (P Q : A -> Prop) : outcome U m P -> (forall a, m = Ok a -> P a -> Q a) -> outcome U m Q.
Proof. destruct m as [a| |]; cbn [outcome]; intros H1 H2; [now apply H2|exact I|exact H1]. Qed.

(** ** Elements of vectors and matrices *)

Lemma set_at_inv {A} (l : list A) : forall k v l', set_at l k v = Ok l' ->
  k < length l /\ length l' = length l /\ nth_error l' k = Some v /\ forall j, j <> k -> nth_error l' j = nth_error l j.
Proof.
  induction l as [|x l IH]; intros [|k] v l' E; cbn [set_at] in E; try discriminate.
  - apply Ok_inj in E. subst l'. cbn [length nth_error]. split; [lia|]. split; [reflexivity|]. split; [reflexivity|]. intros [|j] N; [congruence|reflexivity].
  - destruct (set_at l k v) as [l2| |] eqn:E2; try discriminate. cbn [bind] in E. apply Ok_inj in E. subst l'.
    destruct (IH k v l2 E2) as (A1 & A2 & A3 & A4). cbn [length nth_error]. split; [lia|]. split; [congruence|]. split; [exact A3|].
    intros [|j] N; [reflexivity|]. cbn [nth_error]. apply A4. congruence.
Qed.
Lemma set_at_total {A} (l : list A) : forall k v, k < length l -> exists l', set_at l k v = Ok l'.
Proof.
  induction l as [|x l IH]; intros [|k] v H; cbn [length set_at] in *; try lia; [eexists; reflexivity|].
  destruct (IH k v) as (l' & ->); [lia|]. eexists. reflexivity.
Qed.
Lemma set_at_outcome {A} U (l : list A) k v : k < length l -> outcome U (set_at l k v) (fun l' =>
  length l' = length l /\ nth_error l' k = Some v /\ forall j, j <> k -> nth_error l' j = nth_error l j).
Proof.
  intros H. destruct (set_at_total l k v H) as (l' & E). rewrite E. cbn [outcome]. destruct (set_at_inv l k v l' E) as (_ & R). exact R.
Qed.

Definition shape {V} (m : matrix V) (rows columns : nat) : Prop :=
  m_rows m = rows /\ m_columns m = columns /\ length (m_data m) = columns * rows.
Definition cell {V} (m : matrix V) (r c : nat) : option V := nth_error (m_data m) (r * m_columns m + c).
Lemma index_inj C r c r' c' : c < C -> c' < C -> r * C + c = r' * C + c' -> r = r' /\ c = c'.
Proof.
  intros H H' E. assert (X : forall a b, b < C -> (a * C + b) / C = a /\ (a * C + b) mod C = b).
  { intros a b Hb. split; [rewrite Nat.div_add_l by lia; rewrite Nat.div_small by exact Hb; lia|].
    rewrite Nat.add_comm, Nat.mod_add by lia. now apply Nat.mod_small. }
  destruct (X r c H) as [A1 A2]. destruct (X r' c' H') as [B1 B2]. rewrite E in A1, A2. split; congruence.
Qed.
Lemma matrix_set_outcome {V} (U : Prop) (m : matrix V) R C r c (v : V) : shape m R C -> r < R -> ((c < C -> False) -> U) ->
  outcome U (matrix_set m r c v) (fun m' => shape m' R C /\ (c < C -> cell m' r c = Some v
     /\ forall r' c', c' < C -> (r' <> r \/ c' <> c) -> cell m' r' c' = cell m r' c')).
Proof.
  intros (S1 & S2 & S3) Hr HU. unfold matrix_set. rewrite S2. destruct (set_at (m_data m) (r * C + c) v) as [d| |] eqn:E; cbn [bind outcome]; [|exact I|].
  - destruct (set_at_inv _ _ _ _ E) as (A1 & A2 & A3 & A4). unfold shape, cell. cbn [m_rows m_columns m_data]. rewrite S2.
    split; [split; [exact S1|]; split; [reflexivity|congruence]|]. intros Hc. split; [exact A3|]. intros r' c' Hc' D. apply A4. intros X.
    destruct (index_inj C r' c' r c Hc' Hc X). destruct D; congruence.
  - apply HU. intros Hc. destruct (set_at_total (m_data m) (r * C + c) v) as (d & X); [rewrite S3; nia|]. congruence.
Qed.
Lemma matrix_set_total {V} (m : matrix V) R C r c v : shape m R C -> r < R -> c < C -> exists m', matrix_set m r c v = Ok m'.
Proof.
  intros (S1 & S2 & S3) Hr Hc. unfold matrix_set. rewrite S2. destruct (set_at_total (m_data m) (r * C + c) v) as (d & ->); [rewrite S3; nia|].
  eexists. reflexivity.
Qed.

Section Passes.
  Context {V B : Type} (K : kit V B).

  (** ** One element *)

  Lemma parseCoordNode_iff p inf is2D x :
    parseCoordNode K p inf is2D = Ok x <-> exists v, located K is2D p v /\ x = (v, inf).
  Proof.
    unfold parseCoordNode, located, third. destruct p as [[|c [|c' cs]] [|q [|q' qs]]]; cbn [pl_cart pl_polar length Nat.ltb Nat.leb Nat.eqb orb xorb negb].
    all: try (split; [discriminate|]; intros (v & [(c0 & x0 & y & z & A & A' & _)|(q0 & az & el & r & A & A' & _)] & _); discriminate).
    - destruct q as [az el r]. cbn [p_az p_el p_r]. split.
      + destruct az as [az|]; cbn [get bind]; [|discriminate]. intros E.
        assert (X : exists e, third K is2D el e /\ (r <- get r ;; Ok (k_polar2cart K az e r, inf)) = Ok x).
        { unfold third. destruct is2D, el as [el|]; cbn [get bind] in E; try discriminate; eexists; (split; [|exact E]);
            [left; reflexivity|right; split; [reflexivity|]; split; reflexivity|left; reflexivity]. }
        destruct X as (e & T & X). destruct r as [r|]; cbn [get bind] in X; [|discriminate]. apply Ok_inj in X. subst x.
        eexists. split; [|reflexivity]. right. exists (Polar (Some az) el (Some r)), az, e, r. cbn [p_az p_el p_r].
        split; [reflexivity|]. split; [reflexivity|]. split; [reflexivity|]. split; [exact T|]. split; reflexivity.
      + intros (v & [(c0 & x0 & y & z & A & _)|(q0 & az0 & e & r0 & _ & A & E1 & T & E2 & ->)] & ->); [discriminate|].
        injection A as <-. cbn [p_az p_el p_r] in *. subst az r. cbn [get bind]. destruct T as [->|(-> & -> & ->)]; [|reflexivity].
        destruct is2D; reflexivity.
    - destruct c as [cx cy cz]. cbn [c_x c_y c_z]. split.
      + destruct cx as [cx|]; cbn [get bind]; [|discriminate]. destruct cy as [cy|]; cbn [get bind]; [|discriminate]. intros E.
        assert (X : exists e, third K is2D cz e /\ x = (cx, cy, e, inf)).
        { unfold third. destruct is2D, cz as [cz|]; cbn [get bind] in E; try discriminate; apply Ok_inj in E; subst x; eexists; (split; [|reflexivity]);
            [left; reflexivity|right; split; [reflexivity|]; split; reflexivity|left; reflexivity]. }
        destruct X as (e & T & ->). eexists. split; [|reflexivity]. left. exists (Cart (Some cx) (Some cy) cz), cx, cy, e. cbn [c_x c_y c_z].
        split; [reflexivity|]. split; [reflexivity|]. split; [reflexivity|]. split; [reflexivity|]. split; [exact T|reflexivity].
      + intros (v & [(c0 & x0 & y & z & A & _ & E1 & E2 & T & ->)|(q0 & az0 & e & r0 & A & _)] & ->); [|discriminate].
        injection A as <-. cbn [c_x c_y c_z] in *. subst cx cy. cbn [get bind]. destruct T as [->|(-> & -> & ->)]; [|reflexivity].
        destruct is2D; reflexivity.
  Qed.
  Lemma parseCoordNode_outcome (U : Prop) p inf is2D : outcome U (parseCoordNode K p inf is2D) (fun x => exists v, located K is2D p v /\ x = (v, inf)).
  Proof.
    destruct (parseCoordNode K p inf is2D) as [x| |] eqn:E; cbn [outcome]; [now apply parseCoordNode_iff in E|exact I|].
    exfalso. revert E. unfold parseCoordNode. destruct p as [[|c [|c' cs]] [|q [|q' qs]]]; cbn [pl_cart pl_polar length Nat.ltb Nat.leb Nat.eqb orb xorb negb]; try discriminate.
    - destruct q as [[az|] [el|] [r|]], is2D; cbn; discriminate.
    - destruct c as [[az|] [el|] [r|]], is2D; cbn; discriminate.
  Qed.
  Lemma parseGain_iff d g t : parseGainDelayAdjustments K d = Ok (g, t) <-> gain_is K d g /\ delay_is K d t.
  Proof.
    unfold parseGainDelayAdjustments, gain_is, delay_is. destruct d as [[a|] [b|] [c|]]; cbn [ad_gain ad_gainDB ad_delay bind]; split; try discriminate;
      try (intros E; apply Ok_inj in E; injection E as <- <-; split; [tauto || (right; left; eexists; tauto)|tauto]);
      intros [[[A A']|[(x & A & A' & A'')|(A & A' & A'')]] [C|[C C']]]; try discriminate; congruence.
  Qed.
  Lemma parseGain_outcome (U : Prop) d : outcome U (parseGainDelayAdjustments K d) (fun x => gain_is K d (fst x) /\ delay_is K d (snd x)).
  Proof.
    destruct (parseGainDelayAdjustments K d) as [[g t]| |] eqn:E; cbn [outcome]; [now apply parseGain_iff in E|exact I|].
    revert E. unfold parseGainDelayAdjustments. destruct (ad_gain d), (ad_gainDB d); cbn [bind]; discriminate.
  Qed.
  Lemma delay_total d : exists t, delay_is K d t.
  Proof. unfold delay_is. destruct (ad_delay d) as [t|]; [exists t; now left|exists (k_zero K); now right]. Qed.

  (** ** Output equalisers *)

  Lemma parseChannelLookup_outcome (U : Prop) specs : (forall s, In s specs -> fs_biquads s = UB -> U) -> forall t,
    outcome U (parseChannelLookup specs t) (fun t' =>
      (forall s, In s specs -> (exists name, fs_name s = Some name) /\ exists f, fs_biquads s = Ok f)
      /\ forall name f, eq_find t' name = Some f <-> eq_find t name = Some f \/ (eq_find t name = None /\ @specified B specs name f)).
  Proof.
    induction specs as [|s specs IH]; intros HU t; cbn [parseChannelLookup outcome].
    - split; [intros s []|]. intros name f. split; [now left|]. intros [H|[_ (pre & s & post & E & _)]]; [exact H|destruct pre; discriminate].
    - apply outcome_get. intros name En. destruct (fs_biquads s) as [bs| |] eqn:Eb; cbn [bind outcome]; [|exact I|apply (HU s); [now left|exact Eb]].
      eapply outcome_impl; [apply IH; intros s' H'; apply HU; now right|]. intros t' _ [H1 H2]. split.
      { intros s' [<-|H']; [split; eexists; eassumption|now apply H1]. }
      intros n f. rewrite H2.
      assert (X : forall t, eq_find (t ++ [(name, bs)]) n = match eq_find t n with Some x => Some x | None => if String.eqb name n then Some bs else None end).
      { clear. induction t as [|[k x] t IH]; cbn [app eq_find]; [reflexivity|]. destruct (String.eqb k n); [reflexivity|exact IH]. }
      destruct (String.eqb_spec name n) as [->|NE].
      + assert (Y : specified (s :: specs) n f <-> f = bs).
        { split.
          - intros (pre & s0 & post & E & F1 & F2 & F3). destruct pre as [|p pre]; cbn [app] in E; injection E as <- E.
            + congruence.
            + elim (F3 s); [now left|exact En].
          - intros ->. exists [], s, specs. split; [reflexivity|]. split; [exact En|]. split; [exact Eb|intros s' []]. }
        rewrite Y. destruct (eq_find t n) as [x|] eqn:Et.
        * cbn iota. rewrite ?Et. split; (intros [A|[A _]]; [now left|congruence]).
        * rewrite X, Et. split; [intros [A|[A _]]; [right; split; [reflexivity|congruence]|discriminate]|]. intros [A|[_ ->]]; [discriminate|now left].
      + assert (Y : specified (s :: specs) n f <-> specified specs n f).
        { split.
          - intros (pre & s0 & post & E & F1 & F2 & F3). destruct pre as [|p pre]; cbn [app] in E; injection E as <- E; [congruence|].
            exists pre, s0, post. split; [exact E|]. split; [exact F1|]. split; [exact F2|]. intros s' H'. apply F3. now right.
          - intros (pre & s0 & post & E & F1 & F2 & F3). exists (s :: pre), s0, post. split; [cbn [app]; congruence|]. split; [exact F1|]. split; [exact F2|].
            intros s' [<-|H']; [congruence|now apply F3]. }
        rewrite Y. destruct (eq_find t name) as [x|]; [reflexivity|]. rewrite X. destruct (eq_find t n); reflexivity.
  Qed.
  Lemma parseChannelLookup_total specs : (forall s, In s specs -> (exists name, fs_name s = Some name) /\ exists f : list B, fs_biquads s = Ok f) ->
    forall t, exists t', parseChannelLookup specs t = Ok t'.
  Proof.
    induction specs as [|s specs IH]; intros H t; cbn [parseChannelLookup]; [eexists; reflexivity|].
    destruct (H s (or_introl eq_refl)) as [(name & ->) (f & ->)]. cbn [get bind]. apply IH. intros s' H'. apply H. now right.
  Qed.

  (** The equaliser matrix [e] has [N] rows and the table [t] is that of the document. *)
  Definition eq_good (eqs : list (@eq_config B)) (t : @eq_table B) (N : nat) (e : option (list (list B))) : Prop :=
    (eqs = [] /\ e = None)
    \/ exists c n m, eqs = [c] /\ eq_biquads c = Some n /\ e = Some m /\ length m = N /\ (forall row, In row m -> length row = n)
         /\ (forall name f, eq_find t name = Some f <-> specified (eq_specs c) name f).
  Definition row_at (e : option (list (list B))) (k : nat) : option (list B) := match e with Some m => nth_error m k | None => None end.

  Lemma parse_eqs_outcome (U : Prop) eqs N : (forall e s, In e eqs -> In s (eq_specs e) -> fs_biquads s = UB -> U) ->
    outcome U (parse_eqs K eqs N) (fun x => eq_good eqs (fst x) N (snd x)
      /\ (eqs = [] \/ exists e n, eqs = [e] /\ eq_biquads e = Some n
            /\ forall s, In s (eq_specs e) -> (exists name, fs_name s = Some name) /\ exists f, fs_biquads s = Ok f)).
  Proof.
    intros HU. unfold parse_eqs. destruct eqs as [|e [|e' eqs]]; [|apply outcome_get; intros n En|exact I].
    - cbn [outcome fst snd]. split; left; [split; reflexivity|reflexivity].
    - eapply outcome_bind; [apply parseChannelLookup_outcome; intros s Hs; apply (HU e s); [now left|exact Hs]|]. intros t _ [H1 H2].
      cbn [outcome fst snd]. split; right.
      + exists e, n, (repeat (repeat (k_no_biquad K) n) N). split; [reflexivity|]. split; [exact En|]. split; [reflexivity|]. split; [apply repeat_length|].
        split; [intros row Hr; apply repeat_spec in Hr; subst row; apply repeat_length|]. intros name f. rewrite H2. cbn [eq_find]. split; [intros [A|[_ A]]; [discriminate|exact A]|intros A; right; split; [reflexivity|exact A]].
      + exists e, n. split; [reflexivity|]. split; assumption.
  Qed.
  Lemma parse_eqs_total eqs N : (eqs = [] \/ exists e n, eqs = [e] /\ eq_biquads e = Some n
            /\ forall s, In s (eq_specs e) -> (exists name, fs_name s = Some name) /\ exists f, fs_biquads s = Ok f) -> exists x, parse_eqs K eqs N = Ok x.
  Proof.
    intros [->|(e & n & -> & En & H)]; cbn [parse_eqs]; [eexists; reflexivity|]. rewrite En. cbn [get bind].
    destruct (parseChannelLookup_total (eq_specs e) H []) as (t & ->). eexists. reflexivity.
  Qed.

  Lemma sections_eq (m : list (list B)) n : (forall row, In row m -> length row = n) -> 0 < length m -> sections m = n.
  Proof. destruct m as [|row m]; cbn [length sections]; intros H L; [lia|]. apply H. now left. Qed.
  Lemma parseEqFilter_step (U : Prop) eqs t N e eq k : eq_good eqs t N e -> k < N ->
    outcome U (parseEqFilter K eq t k e) (fun e' => eq_good eqs t N e' /\ equalised K eqs eq (row_at e' k) /\ forall j, j <> k -> row_at e' j = row_at e j)
    /\ ((exists row, equalised K eqs eq row) -> exists e', parseEqFilter K eq t k e = Ok e').
  Proof.
    intros [[-> ->]|(c & n & m & -> & En & -> & L & Hrow & Ht)] Hk; cbn [parseEqFilter].
    - split; [|intros _; eexists; reflexivity]. cbn [outcome row_at]. split; [left; split; reflexivity|]. split; [left; split; reflexivity|reflexivity].
    - assert (S : sections m = n) by (apply sections_eq; [exact Hrow|lia]).
      assert (F : forall f, length f <= n ->
         outcome U (m' <- setFilter K m k f ;; Ok (Some m')) (fun e' => eq_good [c] t N e' /\ row_at e' k = Some (f ++ repeat (k_no_biquad K) (n - length f)) /\ forall j, j <> k -> row_at e' j = row_at (Some m) j)
         /\ exists m', setFilter K m k f = Ok m').
      { intros f Lf. unfold setFilter. rewrite (proj2 (Nat.leb_gt (length m) k)) by lia. rewrite S, (proj2 (Nat.ltb_ge n (length f))) by lia.
        destruct (set_at_total m k (f ++ repeat (k_no_biquad K) (n - length f))) as (m' & E); [lia|]. split; [|exists m'; exact E].
        rewrite E. cbn [bind outcome]. destruct (set_at_inv _ _ _ _ E) as (_ & L' & A1 & A2). cbn [row_at]. split; [|split; [exact A1|exact A2]].
        right. exists c, n, m'. split; [reflexivity|]. split; [exact En|]. split; [reflexivity|]. split; [lia|]. split; [|exact Ht].
        intros row Hr. apply In_nth_error in Hr. destruct Hr as (j & Hj). destruct (Nat.eq_dec j k) as [->|NE].
        - rewrite A1 in Hj. injection Hj as <-. rewrite app_length, repeat_length. lia.
        - rewrite (A2 j NE) in Hj. apply nth_error_In in Hj. now apply Hrow. }
      assert (G : forall f, ~ length f <= n -> setFilter K m k f = Throw InvalidArgument).
      { intros f Lf. unfold setFilter. rewrite (proj2 (Nat.leb_gt (length m) k)) by lia. now rewrite S, (proj2 (Nat.ltb_lt n (length f))) by lia. }
      destruct eq as [name|].
      + destruct (eq_find t name) as [f|] eqn:Ef.
        * pose proof (proj1 (Ht name f) Ef) as Sp. destruct (le_dec (length f) n) as [Lf|Lf].
          { destruct (F f Lf) as [O (m' & E)]. split; [|intros _; exists (Some m'); rewrite E; reflexivity].
            eapply outcome_impl; [exact O|]. intros e' _ (A1 & A2 & A3). split; [exact A1|]. split; [|exact A3]. right.
            exists c, n, f. split; [reflexivity|]. split; [exact En|]. split; [right; exists name; split; [reflexivity|exact Sp]|]. split; [exact Lf|exact A2]. }
          { rewrite (G f Lf). split; [exact I|]. intros (row & [[A _]|(c' & n' & f' & A & En' & [[A' _]|(name' & A' & Sp')] & Lf' & _)]); try discriminate.
            injection A as <-. injection A' as <-. apply Ht in Sp'. assert (f' = f) by congruence. assert (n' = n) by congruence. subst. lia. }
        * split; [exact I|]. intros (row & [[A _]|(c' & n' & f' & A & _ & [[A' _]|(name' & A' & Sp')] & _)]); try discriminate.
          injection A as <-. injection A' as <-. apply Ht in Sp'. congruence.
      + destruct (F [] (Nat.le_0_l _)) as [O (m' & E)]. split; [|intros _; exists (Some m'); rewrite E; reflexivity].
        eapply outcome_impl; [exact O|]. intros e' _ (A1 & A2 & A3). split; [exact A1|]. split; [|exact A3]. right.
        exists c, n, []. split; [reflexivity|]. split; [exact En|]. split; [left; split; reflexivity|]. split; [apply Nat.le_0_l|exact A2].
  Qed.

  (** ** First pass *)

  Lemma name_outcome (U : Prop) (nodes : list (@speaker V)) : forall i ids channels, i + length nodes <= length channels ->
    outcome U (name_speakers i nodes ids channels) (fun x => exists ns cs,
      Forall2 (fun s n => denotes (sp_id s) n /\ acceptable n) nodes ns /\ Forall2 (fun s c => sp_channel s = Some c /\ (1 <= c)%N) nodes cs
      /\ NoDup ns /\ (forall n, In n ns -> mget ids n = None)
      /\ (forall n, mget (fst x) n = if in_dec string_dec n ns then Some 0 else mget ids n) /\ (ordered ids -> ordered (fst x))
      /\ length (snd x) = length channels /\ (forall j, j < length nodes -> nth_error (snd x) (i + j) = nth_error cs j)
      /\ forall j, j < i -> nth_error (snd x) j = nth_error channels j).
  Proof.
    induction nodes as [|s nodes IH]; intros i ids channels L; cbn [name_speakers].
    - cbn [outcome fst snd]. exists [], []. split; [constructor|]. split; [constructor|]. split; [constructor|]. split; [intros n []|].
      split; [reflexivity|]. split; [tauto|]. split; [reflexivity|]. split; [cbn [length]; lia|reflexivity].
    - apply outcome_get. intros raw Er. destruct (regex_match (trim raw)) eqn:EM; cbn [negb orb]; [|exact I].
      destruct (mget ids (trim raw)) eqn:EG; [exact I|]. cbn [length] in L. unfold get_at.
      destruct (nth_error channels i) as [c0|] eqn:EC; [|apply nth_error_None in EC; lia]. cbn [bind].
      destruct (N.eqb c0 cInvalidChannel); cbn [negb]; [|exact I]. apply outcome_get. intros c Ec. destruct (N.ltb_spec c 1) as [LT|LE]; [exact I|].
      eapply outcome_bind; [apply set_at_outcome; lia|]. intros ch' _ (L' & A1 & A2). eapply outcome_impl; [apply IH; lia|].
      intros [ids' ch2] _ (ns & cs & F1 & F2 & ND & Ab & Mg & Or & L2 & C1 & C2). cbn [fst snd] in *. exists (trim raw :: ns), (c :: cs).
      apply regex_match_iff in EM. split; [constructor; [split; [apply denotes_iff; exists raw; split; [exact Er|reflexivity]|exact EM]|exact F1]|].
      split; [constructor; [split; [exact Ec|exact LE]|exact F2]|].
      assert (Nin : ~ In (trim raw) ns) by (intros H; apply Ab in H; rewrite mget_same in H; discriminate).
      split; [constructor; assumption|]. split.
      { intros n [<-|H]; [exact EG|]. apply Ab in H as H'. rewrite mget_other in H'; [exact H'|]. intros ->. exact (Nin H). }
      split.
      { intros n. rewrite Mg. destruct (in_dec string_dec n ns) as [H|H].
        - destruct (in_dec string_dec n (trim raw :: ns)) as [_|H']; [reflexivity|elim H'; now right].
        - destruct (in_dec string_dec n (trim raw :: ns)) as [[<-|H']|H']; [apply mget_same|elim (H H')|]. apply mget_other. intros ->. apply H'. now left. }
      split; [intros O; apply Or; now apply mset_ordered|]. split; [congruence|]. split.
      { intros [|j] Hj; [rewrite Nat.add_0_r; cbn [nth_error]; rewrite (C2 i) by lia; exact A1|].
        replace (i + S j) with (S i + j) by lia. cbn [nth_error]. apply C1. cbn [length] in Hj. lia. }
      intros j Hj. rewrite C2 by lia. apply A2. lia.
  Qed.
  Lemma name_total (nodes : list (@speaker V)) : forall ns cs i ids channels,
    Forall2 (fun s n => denotes (sp_id s) n /\ acceptable n) nodes ns -> Forall2 (fun s c => sp_channel s = Some c /\ (1 <= c)%N) nodes cs ->
    NoDup ns -> (forall n, In n ns -> mget ids n = None) -> (forall j, i <= j < i + length nodes -> nth_error channels j = Some cInvalidChannel) ->
    exists x, name_speakers i nodes ids channels = Ok x.
  Proof.
    induction nodes as [|s nodes IH]; intros ns cs i ids channels F1 F2 ND Ab Inv; cbn [name_speakers]; [eexists; reflexivity|].
    inversion F1 as [|? n ? ns' [D Ac] F1']. inversion F2 as [|? c ? cs' [Ec Lc] F2']. subst. apply denotes_iff in D. destruct D as (raw & Er & ->).
    rewrite Er. cbn [get bind]. apply regex_match_iff in Ac. rewrite Ac. cbn [negb orb]. rewrite (Ab (trim raw)) by (now left). unfold get_at.
    cbn [length] in Inv. rewrite (Inv i) by lia. cbn [bind]. rewrite N.eqb_refl. cbn [negb]. rewrite Ec. cbn [get bind].
    rewrite (proj2 (N.ltb_ge c 1)) by exact Lc. destruct (set_at_total channels i c) as (ch' & E).
    { apply nth_error_Some. rewrite (Inv i) by lia. discriminate. }
    rewrite E. cbn [bind]. destruct (set_at_inv _ _ _ _ E) as (_ & _ & _ & A2). inversion ND as [|? ? Nin ND']. subst.
    apply (IH ns' cs'); try assumption.
    - intros m H. rewrite mget_other; [apply Ab; now right|]. intros ->. exact (Nin H).
    - intros j Hj. rewrite A2 by lia. apply Inv. lia.
  Qed.

  (** ** Second pass *)

  Section Fill.
    Variables (channels : list N) (inf is2D : bool) (eqs : list (@eq_config B)) (t : @eq_table B) (N : nat).
    Definition off (s : @speaker V) : nat := match sp_channel s with Some c => find_index channels c | None => 0 end.
    Definition filled (f : @filling V B) (s : @speaker V) : Prop :=
      exists v g d, located K is2D (sp_place s) v /\ gain_is K (sp_adjust s) g /\ delay_is K (sp_adjust s) d
        /\ nth_error (f_position f) (off s) = Some (v, inf) /\ nth_error (f_gain f) (off s) = Some g /\ nth_error (f_delay f) (off s) = Some d
        /\ equalised K eqs (sp_eq s) (row_at (f_eqs f) (off s)).
    Definition same (f f' : @filling V B) (k : nat) : Prop :=
      nth_error (f_position f') k = nth_error (f_position f) k /\ nth_error (f_gain f') k = nth_error (f_gain f) k
      /\ nth_error (f_delay f') k = nth_error (f_delay f) k /\ row_at (f_eqs f') k = row_at (f_eqs f) k.
    Definition sized (P : nat) (f : @filling V B) : Prop :=
      length (f_position f) = P /\ length (f_gain f) = N /\ length (f_delay f) = N /\ eq_good eqs t N (f_eqs f).
    Definition known (s : @speaker V) : Prop := exists c, sp_channel s = Some c /\ In c channels.

    Lemma fill_speaker_outcome (U : Prop) P f s : known s -> length channels <= P -> length channels <= N -> sized P f ->
      outcome U (fill_speaker K channels inf is2D t f s) (fun f' => sized P f' /\ filled f' s /\ (forall k, k <> off s -> same f f' k)
         /\ exists raw, sp_id s = Some raw /\ f_id f' = mset (f_id f) raw (off s)).
    Proof.
      intros (c & Ec & Hc) HP HN (S1 & S2 & S3 & S4). unfold fill_speaker. apply outcome_get. intros raw Er. rewrite Ec. cbn [get bind].
      assert (O : off s = find_index channels c) by (unfold off; now rewrite Ec). rewrite <- O.
      assert (Lo : off s < length channels) by (rewrite O; now apply find_index_lt). clear O Ec.
      eapply outcome_bind; [apply parseCoordNode_outcome|]. intros x _ (v & Lv & ->).
      eapply outcome_bind; [apply set_at_outcome; lia|]. intros pos _ (P1 & P2 & P3).
      eapply outcome_bind; [apply parseGain_outcome|]. intros [g d] _ [G1 G2]. cbn [fst snd] in G1, G2.
      eapply outcome_bind; [apply set_at_outcome; lia|]. intros gain _ (Q1 & Q2 & Q3).
      eapply outcome_bind; [apply set_at_outcome; lia|]. intros delay _ (R1 & R2 & R3).
      eapply outcome_bind; [apply (parseEqFilter_step U eqs t N); [exact S4|lia]|]. intros e _ (E1 & E2 & E3).
      cbn [outcome]. unfold sized, filled, same. cbn [f_position f_gain f_delay f_eqs f_id].
      split; [split; [lia|]; split; [lia|]; split; [lia|exact E1]|]. split.
      { exists v, g, d. split; [exact Lv|]. split; [exact G1|]. split; [exact G2|]. split; [exact P2|]. split; [exact Q2|]. split; [exact R2|exact E2]. }
      split; [intros k Hk; split; [now apply P3|]; split; [now apply Q3|]; split; [now apply R3|now apply E3]|]. exists raw. split; [exact Er|reflexivity].
    Qed.
    Definition fillable (s : @speaker V) : Prop :=
      (exists raw, sp_id s = Some raw) /\ (exists v, located K is2D (sp_place s) v) /\ (exists g, gain_is K (sp_adjust s) g) /\ exists row, equalised K eqs (sp_eq s) row.
    Lemma fill_speaker_total P f s : known s -> length channels <= P -> length channels <= N -> sized P f -> fillable s ->
      exists f', fill_speaker K channels inf is2D t f s = Ok f'.
    Proof.
      intros (c & Ec & Hc) HP HN (S1 & S2 & S3 & S4) ((raw & Er) & (v & Lv) & (g & Gg) & Row). unfold fill_speaker. rewrite Er, Ec. cbn [get bind].
      pose proof (find_index_lt c channels Hc) as Lo. set (k := find_index channels c) in *.
      rewrite (proj2 (parseCoordNode_iff (sp_place s) inf is2D (v, inf))) by (exists v; split; [exact Lv|reflexivity]). cbn [bind].
      destruct (set_at_total (f_position f) k (v, inf)) as (pos & ->); [lia|]. cbn [bind].
      destruct (delay_total (sp_adjust s)) as (d & Hd). rewrite (proj2 (parseGain_iff (sp_adjust s) g d) (conj Gg Hd)). cbn [bind].
      destruct (set_at_total (f_gain f) k g) as (gain & ->); [lia|]. cbn [bind]. destruct (set_at_total (f_delay f) k d) as (delay & ->); [lia|]. cbn [bind].
      destruct (proj2 (parseEqFilter_step True eqs t N (f_eqs f) (sp_eq s) k S4 (Nat.lt_le_trans _ _ _ Lo HN)) Row) as (e & ->). cbn [bind].
      eexists. reflexivity.
    Qed.
    Lemma fill_outcome (U : Prop) P nodes : forall f, (forall s, In s nodes -> known s) -> length channels <= P -> length channels <= N -> sized P f ->
      outcome U (fill_speakers K channels inf is2D t f nodes) (fun f' => sized P f' /\ (forall k, ~ In k (map off nodes) -> same f f' k)
        /\ (NoDup (map off nodes) -> forall s, In s nodes -> filled f' s)
        /\ (forall n, ~ In (Some n) (map sp_id nodes) -> mget (f_id f') n = mget (f_id f) n)
        /\ (NoDup (map sp_id nodes) -> forall s, In s nodes -> exists raw, sp_id s = Some raw /\ mget (f_id f') raw = Some (off s))
        /\ (ordered (f_id f) -> ordered (f_id f'))).
    Proof.
      induction nodes as [|s nodes IH]; intros f Kn HP HN S; cbn [fill_speakers].
      - cbn [outcome map]. split; [exact S|]. split; [intros k _; unfold same; tauto|]. split; [intros _ s []|]. split; [reflexivity|]. split; [intros _ s []|tauto].
      - eapply outcome_bind; [apply (fill_speaker_outcome U P); [apply Kn; now left|assumption..]|]. intros f1 _ (S1 & F1 & Sm & raw & Er & Em).
        eapply outcome_impl; [apply IH; [intros s' H'; apply Kn; now right|assumption..]|]. intros f2 _ (S2 & Sm2 & F2 & M1 & M2 & O2).
        split; [exact S2|]. cbn [map]. split.
        { intros k Hk. destruct (Sm k) as (A1 & A2 & A3 & A4); [intros ->; apply Hk; now left|].
          destruct (Sm2 k) as (B1 & B2 & B3 & B4); [intros X; apply Hk; now right|]. unfold same.
          split; [congruence|]. split; [congruence|]. split; congruence. }
        split.
        { intros ND s' [<-|H']; inversion ND as [|? ? Nin ND']; subst; [|now apply F2].
          destruct F1 as (v & g & d & A1 & A2 & A3 & A4 & A5 & A6 & A7). destruct (Sm2 (off s) Nin) as (B1 & B2 & B3 & B4).
          exists v, g, d. rewrite B1, B2, B3, B4. tauto. }
        split.
        { intros n Hn. rewrite M1 by (intros X; apply Hn; now right). rewrite Em. apply mget_other. intros ->. apply Hn. now left. }
        split.
        { intros ND s' [<-|H']; inversion ND as [|? ? Nin ND']; subst; [|now apply M2]. exists raw. split; [exact Er|].
          rewrite M1 by (rewrite <- Er; exact Nin). rewrite Em. apply mget_same. }
        intros O. apply O2. rewrite Em. now apply mset_ordered.
    Qed.
    Lemma fill_total P nodes : forall f, (forall s, In s nodes -> known s /\ fillable s) -> length channels <= P -> length channels <= N -> sized P f ->
      exists f', fill_speakers K channels inf is2D t f nodes = Ok f'.
    Proof.
      induction nodes as [|s nodes IH]; intros f H HP HN S; cbn [fill_speakers]; [eexists; reflexivity|].
      destruct (H s (or_introl eq_refl)) as [Hk Hf]. destruct (fill_speaker_total P f s Hk HP HN S Hf) as (f1 & E). rewrite E. cbn [bind].
      pose proof (fill_speaker_outcome True P f s Hk HP HN S) as O. rewrite E in O. cbn [outcome] in O. destruct O as (S1 & _).
      apply IH; [intros s' H'; apply H; now right|assumption..].
    Qed.
  End Fill.

  (** ** Virtual loudspeakers *)

  (** The last entry that names column [c]. *)
  Definition last_at (ids : idmap) (entries : list (string * V)) (c : nat) (x : V) : Prop :=
    exists pre n post, entries = pre ++ (n, x) :: post /\ mget ids n = Some c /\ forall e, In e post -> mget ids (fst e) <> Some c.
  Definition put (ids : idmap) (entries : list (string * V)) (m m' : matrix V) (row C : nat) : Prop :=
    (forall r c, c < C -> r <> row -> cell m' r c = cell m r c)
    /\ forall c, c < C -> (exists x, last_at ids entries c x /\ cell m' row c = Some x)
        \/ ((forall e, In e entries -> mget ids (fst e) <> Some c) /\ cell m' row c = cell m row c).
  Lemma put_cons ids n x entries m m1 m2 row C k : mget ids n = Some k -> k < C ->
    cell m1 row k = Some x -> (forall r c, c < C -> (r <> row \/ c <> k) -> cell m1 r c = cell m r c) -> put ids entries m1 m2 row C -> put ids ((n, x) :: entries) m m2 row C.
  Proof.
    intros Hn Hk E1 E2 [P1 P2]. split.
    - intros r c Hc Hr. rewrite P1 by assumption. apply E2; [exact Hc|now left].
    - intros c Hc. destruct (P2 c Hc) as [(y & (pre & n' & post & -> & A & L) & E)|[A E]].
      + left. exists y. split; [|exact E]. exists ((n, x) :: pre), n', post. split; [reflexivity|]. split; assumption.
      + destruct (Nat.eq_dec c k) as [->|NE].
        * left. exists x. split; [|congruence]. exists [], n, entries. split; [reflexivity|]. split; assumption.
        * right. split; [intros e [<-|He]; [cbn [fst]; congruence|now apply A]|]. rewrite E. apply E2; [exact Hc|now right].
  Qed.

  Definition route_is (r : @route V) (e : string * V) : Prop :=
    denotes (rt_lspId r) (fst e) /\ exists g, rt_gainDB r = Some g /\ snd e = k_dB2linear K g.
  Definition routes_safe (C : nat) (ids : idmap) (routes : list (@route V)) : Prop :=
    forall r n k, In r routes -> denotes (rt_lspId r) n -> mget ids n = Some k -> k < C.
  Lemma routes_safe_cons C ids r routes raw k : rt_lspId r = Some raw -> mget ids (trim raw) = Some k ->
    routes_safe C ids (r :: routes) <-> k < C /\ routes_safe C ids routes.
  Proof.
    intros Er Ek. assert (D : denotes (rt_lspId r) (trim raw)) by (apply denotes_iff; exists raw; split; [exact Er|reflexivity]). split.
    - intros Q. split; [exact (Q r (trim raw) k (or_introl eq_refl) D Ek)|]. intros r0 n k0 Hr. apply Q. now right.
    - intros [Hk Q] r0 n k0 [<-|Hr] Hn Hm; [|exact (Q r0 n k0 Hr Hn Hm)]. rewrite (denotes_unique _ _ _ Hn D) in Hm. congruence.
  Qed.
  Lemma add_routes_outcome (U : Prop) ids R C row routes : row < R -> ((routes_safe C ids routes -> False) -> U) -> forall m, shape m R C ->
    outcome U (add_routes K ids row routes m) (fun m' => exists entries, Forall2 route_is routes entries
      /\ (forall e, In e entries -> exists k, mget ids (fst e) = Some k) /\ shape m' R C /\ (routes_safe C ids routes -> put ids entries m m' row C)).
  Proof.
    intros Hrow. induction routes as [|r routes IH]; intros HU m HS; cbn [add_routes].
    - cbn [outcome]. exists []. split; [constructor|]. split; [intros e []|]. split; [exact HS|]. intros _. split; [reflexivity|].
      intros c Hc. right. split; [intros e []|reflexivity].
    - apply outcome_get. intros raw Er. apply outcome_get. intros g Eg. destruct (mget ids (trim raw)) as [k|] eqn:Ek; [|exact I].
      destruct (is_empty (trim raw)); [exact I|]. pose proof (routes_safe_cons C ids r routes raw k Er Ek) as QC.
      eapply outcome_bind; [apply (matrix_set_outcome U m R C); [exact HS|exact Hrow|]|].
      { intros H. apply HU. intros Q. apply H. now apply QC. }
      intros m1 _ [S1 P1]. eapply outcome_impl; [apply IH; [|exact S1]|].
      { intros H. apply HU. intros Q. apply H. now apply QC. }
      intros m2 _ (entries & F & Kn & S2 & P2). exists ((trim raw, k_dB2linear K g) :: entries). split.
      { constructor; [|exact F]. split; [apply denotes_iff; exists raw; split; [exact Er|reflexivity]|]. exists g. split; [exact Eg|reflexivity]. }
      split; [intros e [<-|He]; [exists k; exact Ek|now apply Kn]|]. split; [exact S2|]. intros Q. apply QC in Q. destruct Q as [Hk Q].
      destruct (P1 Hk) as [E1 E2]. exact (put_cons ids _ _ _ m m1 m2 row C k Ek Hk E1 E2 (P2 Q)).
  Qed.
  Lemma add_routes_total ids R C row routes entries : row < R -> Forall2 route_is routes entries ->
    (forall e, In e entries -> fst e <> EmptyString /\ exists k, mget ids (fst e) = Some k /\ k < C) -> forall m, shape m R C ->
    exists m', add_routes K ids row routes m = Ok m'.
  Proof.
    intros Hrow. induction 1 as [|r e routes entries [D (g & Eg & _)] F IH]; intros H m HS; cbn [add_routes]; [eexists; reflexivity|].
    apply denotes_iff in D. destruct D as (raw & Er & Ee). destruct (H e (or_introl eq_refl)) as (NE & k & Ek & Hk). rewrite Er, Eg. cbn [get bind].
    rewrite <- Ee, Ek. destruct (fst e) as [|a n] eqn:En; [now elim NE|]. cbn [is_empty].
    destruct (matrix_set_total m R C row k (k_dB2linear K g) HS Hrow Hk) as (m1 & E1). rewrite E1. cbn [bind]. apply IH; [intros e' He'; apply H; now right|].
    pose proof (matrix_set_outcome True m R C row k (k_dB2linear K g) HS Hrow (fun _ => I)) as O. rewrite E1 in O. exact (proj1 O).
  Qed.

  Section Virtuals.
    Variables (R : nat) (inf is2D : bool) (Rows : nat).
    (** No route goes to a virtual loudspeaker. *)
    Definition virtuals_safe (ids : idmap) (nodes : list (@virtual V)) : Prop :=
      forall v r n, In v nodes -> In r (vi_routes v) -> denotes (rt_lspId r) n ->
        (forall k, mget ids n = Some k -> k < R) /\ forall v', In v' nodes -> ~ denotes (vi_id v') n.
    Lemma virtuals_safe_cons ids v nodes id i : denotes (vi_id v) id -> virtuals_safe ids (v :: nodes) ->
      routes_safe R (mset ids id i) (vi_routes v) /\ virtuals_safe (mset ids id i) nodes.
    Proof.
      intros D Q. assert (X : forall v0 r n, In v0 (v :: nodes) -> In r (vi_routes v0) -> denotes (rt_lspId r) n -> forall k, mget (mset ids id i) n = Some k -> k < R).
      { intros v0 r n Hv Hr Hn k Hk. destruct (Q v0 r n Hv Hr Hn) as [A1 A2]. apply A1. rewrite mget_other in Hk; [exact Hk|]. intros ->. exact (A2 v (or_introl eq_refl) D). }
      split.
      - intros r n k Hr Hn Hk. exact (X v r n (or_introl eq_refl) Hr Hn k Hk).
      - intros v0 r n Hv Hr Hn. split; [exact (X v0 r n (or_intror Hv) Hr Hn)|]. intros v' Hv'. destruct (Q v0 r n (or_intror Hv) Hr Hn) as [_ A2]. apply A2. now right.
    Qed.
    Lemma add_virtuals_outcome (U : Prop) nodes : forall i ids pos m, R <= i -> i + length nodes <= length pos -> i - R + length nodes <= Rows -> shape m Rows R ->
      ((virtuals_safe ids nodes -> False) -> U) ->
      outcome U (add_virtuals K R inf is2D i nodes ids pos m) (fun x => let '(ids', pos', m') := x in exists vs,
        Forall2 (fun v n => denotes (vi_id v) n /\ acceptable n) nodes vs /\ NoDup vs /\ (forall n, In n vs -> mget ids n = None)
        /\ (forall j n, nth_error vs j = Some n -> mget ids' n = Some (i + j)) /\ (forall n, ~ In n vs -> mget ids' n = mget ids n)
        /\ (ordered ids -> ordered ids') /\ length pos' = length pos
        /\ (forall k, k < i \/ i + length nodes <= k -> nth_error pos' k = nth_error pos k)
        /\ (forall j v, nth_error nodes j = Some v -> exists x, located K is2D (vi_place v) x /\ nth_error pos' (i + j) = Some (x, inf))
        /\ shape m' Rows R
        /\ (virtuals_safe ids nodes -> (forall r c, c < R -> (r < i - R \/ i - R + length nodes <= r) -> cell m' r c = cell m r c))
        /\ (forall j v, nth_error nodes j = Some v -> exists entries, Forall2 route_is (vi_routes v) entries
              /\ (forall e, In e entries -> exists k, mget ids' (fst e) = Some k)
              /\ (virtuals_safe ids nodes -> forall c, c < R -> (exists x, last_at ids' entries c x /\ cell m' (i - R + j) c = Some x)
                    \/ ((forall e, In e entries -> mget ids' (fst e) <> Some c) /\ cell m' (i - R + j) c = cell m (i - R + j) c)))).
    Proof.
      induction nodes as [|v nodes IH]; intros i ids pos m Hi Lp Lr HS HU; cbn [add_virtuals].
      - cbn [outcome]. exists []. split; [constructor|]. split; [constructor|]. split; [intros n []|]. split; [intros [|j] n H; discriminate|].
        split; [reflexivity|]. split; [tauto|]. split; [reflexivity|]. split; [reflexivity|]. split; [intros [|j] v H; discriminate|]. split; [exact HS|].
        split; [reflexivity|]. intros [|j] v H; discriminate.
      - cbn [length] in *. apply outcome_get. intros raw Er. destruct (regex_match (trim raw)) eqn:EM; cbn [negb orb]; [|exact I].
        destruct (mget ids (trim raw)) eqn:EG; [exact I|].
        assert (D : denotes (vi_id v) (trim raw)) by (apply denotes_iff; exists raw; split; [exact Er|reflexivity]).
        pose proof (virtuals_safe_cons ids v nodes (trim raw) i D) as QC. apply regex_match_iff in EM.
        eapply outcome_bind; [apply (add_routes_outcome U (mset ids (trim raw) i) Rows R (i - R) (vi_routes v)); [lia| |exact HS]|].
        { intros H. apply HU. intros Q. apply H. now apply QC. }
        intros m1 _ (entries & F & Kn & S1 & P1). eapply outcome_bind; [apply parseCoordNode_outcome|]. intros x _ (y & Ly & ->).
        eapply outcome_bind; [apply set_at_outcome; lia|]. intros pos1 _ (L1 & X1 & X2). eapply outcome_impl; [apply (IH (S i) (mset ids (trim raw) i) pos1 m1); [lia|lia|lia|exact S1|]|].
        { intros H. apply HU. intros Q. apply H. now apply QC. }
        intros [[ids' pos'] m'] _ (vs & A1 & A2 & A3 & A4 & A5 & A6 & A7 & A8 & A9 & A10 & A11 & A12). exists (trim raw :: vs).
        assert (Nin : ~ In (trim raw) vs) by (intros H; apply A3 in H; rewrite mget_same in H; discriminate).
        assert (Keep : forall n k, mget (mset ids (trim raw) i) n = Some k -> mget ids' n = Some k).
        { intros n k H. rewrite A5; [exact H|]. intros I'. apply A3 in I'. congruence. }
        split; [constructor; [split; assumption|exact A1]|]. split; [constructor; assumption|]. split.
        { intros n [<-|H]; [exact EG|]. pose proof (A3 n H) as H'. rewrite mget_other in H'; [exact H'|]. intros ->. exact (Nin H). }
        split.
        { intros [|j] n E; cbn [nth_error] in E; [injection E as <-; rewrite Nat.add_0_r; apply Keep, mget_same|]. rewrite (A4 j n E). f_equal. lia. }
        split.
        { intros n H. rewrite A5 by (intros X; apply H; now right). apply mget_other. intros ->. apply H. now left. }
        split; [intros O; apply A6; now apply mset_ordered|]. split; [congruence|]. split.
        { intros k Hk. rewrite A8 by lia. apply X2. lia. }
        split.
        { intros [|j] w E; cbn [nth_error] in E.
          - injection E as <-. exists y. split; [exact Ly|]. rewrite Nat.add_0_r, A8 by lia. exact X1.
          - destruct (A9 j w E) as (z & Z1 & Z2). exists z. split; [exact Z1|]. replace (i + S j) with (S i + j) by lia. exact Z2. }
        split; [exact A10|]. split.
        { intros Q r c Hc Hr. destruct (QC Q) as [Q1 Q2]. rewrite (A11 Q2) by lia. destruct (P1 Q1) as [P2 _]. apply P2; lia. }
        intros [|j] w E; cbn [nth_error] in E.
        + injection E as <-. exists entries. split; [exact F|]. split.
          { intros e He. destruct (Kn e He) as (k & Hk). exists k. now apply Keep. }
          intros Q c Hc. destruct (QC Q) as [Q1 Q2]. destruct (P1 Q1) as [_ P2]. rewrite Nat.add_0_r, (A11 Q2) by lia.
          assert (Same : forall e, In e entries -> mget ids' (fst e) = mget (mset ids (trim raw) i) (fst e)).
          { intros e He. destruct (Kn e He) as (k & Hk). rewrite Hk. now apply Keep. }
          destruct (P2 c Hc) as [(x & (pre & n & post & -> & B1 & B2) & B3)|[B1 B2]].
          * left. exists x. split; [|exact B3]. exists pre, n, post. split; [reflexivity|]. split; [now apply Keep|]. intros e He. rewrite Same; [now apply B2|].
            apply in_or_app. right. now right.
          * right. split; [|exact B2]. intros e He. rewrite Same by exact He. now apply B1.
        + destruct (A12 j w E) as (en & B1 & B2 & B3). exists en. split; [exact B1|]. split; [exact B2|]. intros Q c Hc. destruct (QC Q) as [Q1 Q2].
          replace (i - R + S j) with (S i - R + j) by lia. destruct (B3 Q2 c Hc) as [H|[H1 H2]]; [left; exact H|]. right. split; [exact H1|]. rewrite H2.
          destruct (P1 Q1) as [P2 _]. apply P2; lia.
    Qed.
    Definition placeable (v : @virtual V) : Prop := exists x, located K is2D (vi_place v) x.
    Lemma add_virtuals_total nodes : forall vs i ids pos m, Forall2 (fun v n => denotes (vi_id v) n /\ acceptable n) nodes vs -> NoDup vs ->
      (forall n, In n vs -> mget ids n = None) -> R <= i -> i + length nodes <= length pos -> i - R + length nodes <= Rows -> shape m Rows R ->
      (forall v, In v nodes -> placeable v /\ exists entries, Forall2 route_is (vi_routes v) entries
          /\ forall e, In e entries -> fst e <> EmptyString /\ exists k, mget ids (fst e) = Some k /\ k < R) ->
      exists x, add_virtuals K R inf is2D i nodes ids pos m = Ok x.
    Proof.
      induction nodes as [|v nodes IH]; intros vs i ids pos m F ND Ab Hi Lp Lr HS H; cbn [add_virtuals]; [eexists; reflexivity|].
      inversion F as [|? n ? vs' [D Ac] F']. subst. cbn [length] in *. apply denotes_iff in D. destruct D as (raw & Er & ->). rewrite Er. cbn [get bind].
      apply regex_match_iff in Ac. rewrite Ac. cbn [negb orb]. rewrite (Ab (trim raw)) by (now left). inversion ND as [|? ? Nin ND']. subst.
      destruct (H v (or_introl eq_refl)) as [(x & Lx) (entries & Fe & He)].
      assert (Keep : forall n k, mget ids n = Some k -> mget (mset ids (trim raw) i) n = Some k).
      { intros n k Hn. rewrite mget_other; [exact Hn|]. intros ->. rewrite (Ab (trim raw)) in Hn by (now left). discriminate. }
      destruct (add_routes_total (mset ids (trim raw) i) Rows R (i - R) (vi_routes v) entries) with (m := m) as (m1 & E1); [lia|exact Fe| |exact HS|].
      { intros e He'. destruct (He e He') as (NE & k & Hk & Lk). split; [exact NE|]. exists k. split; [now apply Keep|exact Lk]. }
      rewrite E1. cbn [bind]. rewrite (proj2 (parseCoordNode_iff (vi_place v) inf is2D (x, inf))) by (exists x; split; [exact Lx|reflexivity]). cbn [bind].
      destruct (set_at_total pos i (x, inf)) as (pos1 & E2); [lia|]. rewrite E2. cbn [bind]. apply (IH vs'); try assumption.
      - intros n Hn. rewrite mget_other; [apply Ab; now right|]. intros ->. exact (Nin Hn).
      - lia.
      - rewrite (proj1 (proj2 (set_at_inv _ _ _ _ E2))). lia.
      - lia.
      - assert (Lrow : i - R < Rows) by lia. pose proof (add_routes_outcome True (mset ids (trim raw) i) Rows R (i - R) (vi_routes v) Lrow (fun _ => I) m HS) as O.
        rewrite E1 in O. destruct O as (_ & _ & _ & S1 & _). exact S1.
      - intros w Hw. destruct (H w (or_intror Hw)) as [P (en & Fn & Hn)]. split; [exact P|]. exists en. split; [exact Fn|].
        intros e He'. destruct (Hn e He') as (NE & k & Hk & Lk). split; [exact NE|]. exists k. split; [now apply Keep|exact Lk].
    Qed.
  End Virtuals.

  (** ** Triplets *)

  Definition resolves (ids : idmap) (o : option string) (k : nat) : Prop := exists n, denotes o n /\ n <> EmptyString /\ mget ids n = Some k.
  Definition triplet_at (is2D : bool) (ids : idmap) (t : triplet) (x : nat * nat * option nat) : Prop :=
    resolves ids (tr_l1 t) (fst (fst x)) /\ resolves ids (tr_l2 t) (snd (fst x))
    /\ ((is2D = true /\ snd x = None) \/ (is2D = false /\ exists k, resolves ids (tr_l3 t) k /\ snd x = Some k)).
  Lemma find_id_outcome (U : Prop) ids raw : outcome U (find_id ids raw) (fun k => resolves ids (Some raw) k).
  Proof.
    unfold find_id. destruct (mget ids (trim raw)) as [k|] eqn:E; [|exact I]. destruct (is_empty (trim raw)) eqn:EE; [exact I|]. cbn [outcome].
    exists (trim raw). split; [apply denotes_iff; exists raw; split; reflexivity|]. split; [|exact E]. intros X. rewrite X in EE. discriminate.
  Qed.
  Lemma find_id_total ids o k : resolves ids o k -> exists raw, o = Some raw /\ find_id ids raw = Ok k.
  Proof.
    intros (n & D & NE & E). apply denotes_iff in D. destruct D as (raw & Er & ->). exists raw. split; [exact Er|]. unfold find_id. rewrite E.
    destruct (trim raw); [now elim NE|reflexivity].
  Qed.
  Lemma parse_triplet_outcome (U : Prop) is2D ids t : outcome U (parse_triplet is2D ids t) (triplet_at is2D ids t).
  Proof.
    unfold parse_triplet, triplet_at. apply outcome_get. intros r1 E1. apply outcome_get. intros r2 E2. rewrite E1, E2.
    eapply outcome_bind; [apply find_id_outcome|]. intros k1 _ H1. eapply outcome_bind; [apply find_id_outcome|]. intros k2 _ H2.
    destruct is2D; cbn [outcome fst snd]; [split; [exact H1|]; split; [exact H2|]; left; split; reflexivity|].
    apply outcome_get. intros r3 E3. rewrite E3. eapply outcome_bind; [apply find_id_outcome|]. intros k3 _ H3. cbn [outcome fst snd].
    split; [exact H1|]. split; [exact H2|]. right. split; [reflexivity|]. exists k3. split; [exact H3|reflexivity].
  Qed.
  Lemma parse_triplet_total is2D ids t x : triplet_at is2D ids t x -> parse_triplet is2D ids t = Ok x.
  Proof.
    destruct x as [[k1 k2] k3]. unfold parse_triplet, triplet_at. cbn [fst snd]. intros (H1 & H2 & H3).
    destruct (find_id_total _ _ _ H1) as (r1 & -> & F1). destruct (find_id_total _ _ _ H2) as (r2 & -> & F2). cbn [get bind]. rewrite F1. cbn [bind]. rewrite F2. cbn [bind].
    destruct H3 as [[-> ->]|(-> & k & H3 & ->)]; [reflexivity|]. destruct (find_id_total _ _ _ H3) as (r3 & -> & F3). cbn [get bind]. rewrite F3. reflexivity.
  Qed.
  Lemma parse_triplets_outcome (U : Prop) is2D ids nodes : outcome U (parse_triplets is2D ids nodes) (fun xs => Forall2 (triplet_at is2D ids) nodes xs).
  Proof.
    induction nodes as [|t nodes IH]; cbn [parse_triplets]; [constructor|]. eapply outcome_bind; [apply parse_triplet_outcome|]. intros x _ Hx.
    eapply outcome_bind; [exact IH|]. intros xs _ Hxs. cbn [outcome]. constructor; assumption.
  Qed.
  Lemma parse_triplets_total is2D ids nodes : (forall t, In t nodes -> exists x, triplet_at is2D ids t x) -> exists xs, parse_triplets is2D ids nodes = Ok xs.
  Proof.
    induction nodes as [|t nodes IH]; intros H; cbn [parse_triplets]; [eexists; reflexivity|]. destruct (H t (or_introl eq_refl)) as (x & Hx).
    rewrite (parse_triplet_total _ _ _ _ Hx). cbn [bind]. destruct IH as (xs & ->); [intros t' H'; apply H; now right|]. eexists. reflexivity.
  Qed.

  (** ** Subwoofers *)

  Lemma add_weights_outcome (U : Prop) ids Rows C row names : row < Rows -> (forall n, In n names -> exists k, mget ids n = Some k) ->
    ((( forall n k, In n names -> mget ids n = Some k -> k < C) -> False) -> U) -> forall ws m, shape m Rows C ->
    outcome U (@add_weights V ids row names ws m) (fun m' => shape m' Rows C
      /\ ((forall n k, In n names -> mget ids n = Some k -> k < C) -> put ids (combine names ws) m m' row C)).
  Proof.
    intros Hrow. induction names as [|n names IH]; intros Kn HU ws m HS; cbn [add_weights combine].
    - cbn [outcome]. split; [exact HS|]. intros _. split; [reflexivity|]. intros c Hc. right. split; [intros e []|reflexivity].
    - destruct ws as [|w ws]; cbn [outcome combine].
      { split; [exact HS|]. intros _. split; [reflexivity|]. intros c Hc. right. split; [intros e []|reflexivity]. }
      destruct (Kn n (or_introl eq_refl)) as (k & Ek). rewrite Ek. eapply outcome_bind; [apply (matrix_set_outcome U m Rows C); [exact HS|exact Hrow|]|].
      { intros H. apply HU. intros Q. apply H. apply (Q n k); [now left|exact Ek]. }
      intros m1 _ [S1 P1]. eapply outcome_impl; [apply IH; [intros n' H'; apply Kn; now right| |exact S1]|].
      { intros H. apply HU. intros Q. apply H. intros n' k' H'. apply Q. now right. }
      intros m2 _ [S2 P2]. split; [exact S2|]. intros Q. assert (Hk : k < C) by (apply (Q n k); [now left|exact Ek]). destruct (P1 Hk) as [E1 E2].
      refine (put_cons ids _ _ _ m m1 m2 row C k Ek Hk E1 E2 (P2 _)). intros n' k' H'. apply Q. now right.
  Qed.
  Lemma add_weights_total ids Rows C row names : row < Rows -> (forall n, In n names -> exists k, mget ids n = Some k /\ k < C) -> forall ws m, shape m Rows C ->
    exists m', @add_weights V ids row names ws m = Ok m'.
  Proof.
    intros Hrow. induction names as [|n names IH]; intros Kn ws m HS; cbn [add_weights]; [eexists; reflexivity|]. destruct ws as [|w ws]; [eexists; reflexivity|].
    destruct (Kn n (or_introl eq_refl)) as (k & Ek & Hk). rewrite Ek. destruct (matrix_set_total m Rows C row k w HS Hrow Hk) as (m1 & E1). rewrite E1. cbn [bind].
    apply IH; [intros n' H'; apply Kn; now right|]. pose proof (matrix_set_outcome True m Rows C row k w HS Hrow (fun _ => I)) as O. rewrite E1 in O. exact (proj1 O).
  Qed.
  Lemma map_fst_combine {A C} (l : list A) (r : list C) : length l = length r -> map fst (combine l r) = l.
  Proof. revert r. induction l as [|x l IH]; intros [|y r] L; try discriminate; [reflexivity|]. cbn [combine map fst]. f_equal. apply IH. now injection L. Qed.
  Lemma map_snd_combine {A C} (l : list A) (r : list C) : length l = length r -> map snd (combine l r) = r.
  Proof. revert r. induction l as [|x l IH]; intros [|y r] L; try discriminate; [reflexivity|]. cbn [combine map snd]. f_equal. apply IH. now injection L. Qed.

  Section Subwoofers.
    Variables (R Rows : nat) (ids : idmap) (eqs : list (@eq_config B)) (t : @eq_table B) (N : nat).
    Definition sub_sized (u : @subs V B) : Prop :=
      length (u_channels u) = Rows /\ shape (u_gains u) Rows R /\ length (u_gain u) = N /\ length (u_delay u) = N /\ eq_good eqs t N (u_eqs u).
    Definition sub_safe (s : @subwoofer V) : Prop := forall names n k, lists (sb_assigned s) names -> In n names -> mget ids n = Some k -> k < R.
    (** Subwoofer [j] is described by [s]. *)
    Definition sub_outputs (u : @subs V B) (j : nat) (s : @subwoofer V) : Prop :=
      (exists c, sb_channel s = Some c /\ nth_error (u_channels u) j = Some c)
      /\ (exists g d, gain_is K (sb_adjust s) g /\ delay_is K (sb_adjust s) d /\ nth_error (u_gain u) (R + j) = Some g /\ nth_error (u_delay u) (R + j) = Some d)
      /\ equalised K eqs (sb_eq s) (row_at (u_eqs u) (R + j)).
    Definition sub_same (u u' : @subs V B) (j : nat) : Prop :=
      nth_error (u_channels u') j = nth_error (u_channels u) j.
    Definition out_same (u u' : @subs V B) (k : nat) : Prop :=
      nth_error (u_gain u') k = nth_error (u_gain u) k /\ nth_error (u_delay u') k = nth_error (u_delay u) k /\ row_at (u_eqs u') k = row_at (u_eqs u) k.
    Definition entries_are (s : @subwoofer V) (entries : list (string * V)) : Prop :=
      weights_are K s entries /\ forall e, In e entries -> exists k, mget ids (fst e) = Some k.

    Lemma add_subwoofer_outcome (U : Prop) j s u : (forall w, k_float_sequence K w = UB -> U) -> ((sub_safe s -> False) -> U) -> sub_sized u -> j < Rows -> R + Rows <= N ->
      outcome U (add_subwoofer K R ids t j s u) (fun u' => sub_sized u' /\ sub_outputs u' j s /\ (forall j', j' <> j -> sub_same u u' j') /\ (forall k, k <> R + j -> out_same u u' k)
        /\ exists entries, entries_are s entries /\ (sub_safe s -> put ids entries (u_gains u) (u_gains u') j R)).
    Proof.
      intros HF HU (S1 & S2 & S3 & S4 & S5) Hj HN. unfold add_subwoofer. apply outcome_get. intros c Ec.
      eapply outcome_bind; [apply set_at_outcome; lia|]. intros ch _ (C1 & C2 & C3). apply outcome_get. intros raw Er.
      set (names := split (remove_spaces raw)). destruct (existsb _ names) eqn:EX; [exact I|].
      assert (Kn : forall n, In n names -> n <> EmptyString /\ exists k, mget ids n = Some k).
      { intros n Hn. apply Bool.not_true_iff_false in EX. destruct (mget ids n) as [k|] eqn:Ek.
        - split; [|exists k; reflexivity]. intros ->. apply EX. apply existsb_exists. exists EmptyString. split; [exact Hn|]. cbn [is_empty]. apply orb_true_r.
        - exfalso. apply EX. apply existsb_exists. exists n. split; [exact Hn|]. rewrite Ek. reflexivity. }
      assert (Ls : lists (sb_assigned s) names).
      { apply lists_iff. exists raw. split; [exact Er|]. split; [reflexivity|]. intros n Hn. now apply Kn. }
      assert (W : outcome U (match sb_weights s with
                 | Some w =>
                     ws <- k_float_sequence K w ;;
                     if negb (Nat.eqb (length ws) (length names)) then Throw InvalidArgument else Ok ws
                 | None => Ok (repeat (k_one K) (length names))
                 end) (fun ws => length ws = length names /\ weights_are K s (combine names ws))).
      { assert (X : forall ws, length ws = length names -> ((sb_weights s = None /\ ws = repeat (k_one K) (length names)) \/ exists w, sb_weights s = Some w /\ k_float_sequence K w = Ok ws) ->
          length ws = length names /\ weights_are K s (combine names ws)).
        { intros ws Lw H. split; [exact Lw|]. unfold weights_are. rewrite map_fst_combine, map_snd_combine by congruence. split; [exact Ls|].
          destruct H as [[H1 H2]|H]; [left|right; exact H]. split; [exact H1|]. intros e He. apply (in_map snd) in He. rewrite map_snd_combine in He by congruence.
          rewrite H2 in He. now apply repeat_spec in He. }
        destruct (sb_weights s) as [w|]; cbn [outcome].
        - destruct (k_float_sequence K w) as [ws| |] eqn:Ew; cbn [bind outcome]; [|exact I|exact (HF w Ew)].
          destruct (Nat.eqb_spec (length ws) (length names)) as [E|E]; cbn [negb outcome]; [|exact I]. apply X; [exact E|]. right. exists w. split; [reflexivity|exact Ew].
        - apply X; [apply repeat_length|]. left. split; reflexivity. }
      eapply outcome_bind; [exact W|]. clear W. intros ws _ [Lw Ww].
      assert (QS : sub_safe s -> forall n k, In n names -> mget ids n = Some k -> k < R) by (intros Q n k; exact (Q names n k Ls)).
      eapply outcome_bind; [apply (add_weights_outcome U ids Rows R j names Hj); [intros n Hn; now apply Kn| |exact S2]|].
      { intros H. apply HU. intros Q. apply H. now apply QS. }
      intros gains _ [G1 G2]. eapply outcome_bind; [apply parseGain_outcome|]. intros [g d] _ [D1 D2]. cbn [fst snd] in D1, D2.
      eapply outcome_bind; [apply set_at_outcome; lia|]. intros gain _ (A1 & A2 & A3).
      eapply outcome_bind; [apply set_at_outcome; lia|]. intros delay _ (B1 & B2 & B3).
      eapply outcome_bind; [apply (parseEqFilter_step U eqs t N); [exact S5|lia]|]. intros e _ (E1 & E2 & E3).
      cbn [outcome]. unfold sub_sized, sub_outputs, sub_same, out_same. cbn [u_channels u_gains u_gain u_delay u_eqs].
      split; [split; [lia|]; split; [exact G1|]; split; [lia|]; split; [lia|exact E1]|]. split.
      { split; [exists c; split; [exact Ec|exact C2]|]. split; [|exact E2]. exists g, d. split; [exact D1|]. split; [exact D2|]. split; [exact A2|exact B2]. }
      split; [exact C3|]. split; [intros k Hk; split; [now apply A3|]; split; [now apply B3|now apply E3]|]. exists (combine names ws). split.
      { split; [exact Ww|]. intros e0 He. apply (in_map fst) in He. rewrite map_fst_combine in He by congruence. now apply Kn. }
      intros Q. exact (G2 (QS Q)).
    Qed.
    Definition addable (s : @subwoofer V) : Prop :=
      sb_channel s <> None /\ (exists g, gain_is K (sb_adjust s) g) /\ (exists row, equalised K eqs (sb_eq s) row)
      /\ exists entries, weights_are K s entries /\ forall e, In e entries -> exists k, mget ids (fst e) = Some k /\ k < R.
    Lemma add_subwoofer_total j s u : addable s -> sub_sized u -> j < Rows -> R + Rows <= N -> exists u', add_subwoofer K R ids t j s u = Ok u'.
    Proof.
      intros (Hc & (g & Hg) & Row & entries & (Ls & W) & He) (S1 & S2 & S3 & S4 & S5) Hj HN. unfold add_subwoofer.
      destruct (sb_channel s) as [c|]; [|now elim Hc]. cbn [get bind]. destruct (set_at_total (u_channels u) j c) as (ch & ->); [lia|]. cbn [bind].
      apply lists_iff in Ls. destruct Ls as (raw & -> & En & NE). cbn [get bind]. rewrite En.
      assert (Kn : forall n, In n (map fst entries) -> exists k, mget ids n = Some k /\ k < R).
      { intros n Hn. apply in_map_iff in Hn. destruct Hn as (e & <- & Hn). now apply He. }
      destruct (existsb _ (map fst entries)) eqn:EX.
      { apply existsb_exists in EX. destruct EX as (n & Hn & E). destruct (Kn n Hn) as (k & Ek & _). rewrite Ek in E. cbn [orb] in E.
        destruct n as [|a n]; [elim (NE EmptyString Hn); reflexivity|discriminate]. }
      assert (X : exists ws, (match sb_weights s with
                 | Some w =>
                     ws <- k_float_sequence K w ;;
                     if negb (Nat.eqb (length ws) (length (map fst entries))) then Throw InvalidArgument else Ok ws
                 | None => Ok (repeat (k_one K) (length (map fst entries)))
                 end) = Ok ws).
      { destruct W as [[-> _]|(w & -> & ->)]; [eexists; reflexivity|]. cbn [bind]. rewrite !map_length, Nat.eqb_refl. eexists. reflexivity. }
      destruct X as (ws & ->). cbn [bind]. destruct (add_weights_total ids Rows R j (map fst entries) Hj Kn ws (u_gains u) S2) as (gains & ->). cbn [bind].
      destruct (delay_total (sb_adjust s)) as (d & Hd). rewrite (proj2 (parseGain_iff (sb_adjust s) g d) (conj Hg Hd)). cbn [bind].
      destruct (set_at_total (u_gain u) (R + j) g) as (gain & ->); [lia|]. cbn [bind]. destruct (set_at_total (u_delay u) (R + j) d) as (delay & ->); [lia|]. cbn [bind].
      assert (Lk : R + j < N) by lia. destruct (proj2 (parseEqFilter_step True eqs t N (u_eqs u) (sb_eq s) (R + j) S5 Lk) Row) as (e & ->). cbn [bind]. eexists. reflexivity.
    Qed.
    Lemma add_subwoofers_outcome (U : Prop) nodes : (forall w, k_float_sequence K w = UB -> U) -> R + Rows <= N -> forall j u,
      ((( forall s, In s nodes -> sub_safe s) -> False) -> U) -> sub_sized u -> j + length nodes <= Rows ->
      outcome U (add_subwoofers K R ids t j nodes u) (fun u' => sub_sized u'
        /\ (forall i s, nth_error nodes i = Some s -> sub_outputs u' (j + i) s)
        /\ (forall i, i < j \/ j + length nodes <= i -> sub_same u u' i) /\ (forall k, k < R + j \/ R + j + length nodes <= k -> out_same u u' k)
        /\ ((forall s, In s nodes -> sub_safe s) -> forall r c, c < R -> (r < j \/ j + length nodes <= r) -> cell (u_gains u') r c = cell (u_gains u) r c)
        /\ (forall i s, nth_error nodes i = Some s -> exists entries, entries_are s entries
              /\ ((forall s, In s nodes -> sub_safe s) -> forall c, c < R -> (exists x, last_at ids entries c x /\ cell (u_gains u') (j + i) c = Some x)
                    \/ ((forall e, In e entries -> mget ids (fst e) <> Some c) /\ cell (u_gains u') (j + i) c = cell (u_gains u) (j + i) c)))).
    Proof.
      intros HF HN. induction nodes as [|s nodes IH]; intros j u HU HS Hj; cbn [add_subwoofers].
      - cbn [outcome]. split; [exact HS|]. split; [intros [|i] s H; discriminate|]. split; [intros i _; reflexivity|]. split; [intros k _; unfold out_same; tauto|].
        split; [reflexivity|]. intros [|i] s H; discriminate.
      - cbn [length] in *. eapply outcome_bind; [apply (add_subwoofer_outcome U); [exact HF| |exact HS|lia|exact HN]|].
        { intros H. apply HU. intros Q. apply H. apply Q. now left. }
        intros u1 _ (S1 & O1 & C1 & D1 & en & E1 & P1). eapply outcome_impl; [apply (IH (S j) u1); [|exact S1|lia]|].
        { intros H. apply HU. intros Q. apply H. intros s' H'. apply Q. now right. }
        intros u2 _ (S2 & O2 & C2 & D2 & G2 & E2). split; [exact S2|].
        assert (QC : (forall s', In s' (s :: nodes) -> sub_safe s') -> sub_safe s /\ forall s', In s' nodes -> sub_safe s').
        { intros Q. split; [apply Q; now left|]. intros s' H'. apply Q. now right. }
        split.
        { intros [|i] s' H; cbn [nth_error] in H.
          - injection H as <-. rewrite Nat.add_0_r. destruct O1 as ((c & X1 & X2) & (g & d & X3 & X4 & X5 & X6) & X7).
            assert (Y1 : sub_same u1 u2 j) by (apply C2; lia). assert (Y2 : out_same u1 u2 (R + j)) by (apply D2; lia). destruct Y2 as (Y2 & Y3 & Y4). unfold sub_same in Y1.
            split; [exists c; split; [exact X1|congruence]|]. split; [|congruence]. exists g, d. split; [exact X3|]. split; [exact X4|]. split; congruence.
          - replace (j + S i) with (S j + i) by lia. now apply O2. }
        split.
        { intros i Hi. unfold sub_same in *. rewrite C2 by lia. apply C1. lia. }
        split.
        { intros k Hk. destruct (D2 k) as (A1 & A2 & A3); [lia|]. destruct (D1 k) as (B1 & B2 & B3); [lia|]. unfold out_same. split; [congruence|]. split; congruence. }
        split.
        { intros Q r c Hc Hr. destruct (QC Q) as [Q1 Q2]. rewrite (G2 Q2) by lia. destruct (P1 Q1) as [P _]. apply P; lia. }
        intros [|i] s' H; cbn [nth_error] in H.
        + injection H as <-. exists en. split; [exact E1|]. intros Q c Hc. destruct (QC Q) as [Q1 Q2]. rewrite Nat.add_0_r, (G2 Q2) by lia. destruct (P1 Q1) as [_ P]. now apply P.
        + destruct (E2 i s' H) as (en' & X1 & X2). exists en'. split; [exact X1|]. intros Q c Hc. destruct (QC Q) as [Q1 Q2]. replace (j + S i) with (S j + i) by lia.
          destruct (X2 Q2 c Hc) as [X|[X3 X4]]; [left; exact X|]. right. split; [exact X3|]. rewrite X4. destruct (P1 Q1) as [P _]. apply P; lia.
    Qed.
    Lemma add_subwoofers_total nodes : (forall w, k_float_sequence K w = UB -> True) -> R + Rows <= N -> forall j u, (forall s, In s nodes -> addable s) -> sub_sized u -> j + length nodes <= Rows ->
      exists u', add_subwoofers K R ids t j nodes u = Ok u'.
    Proof.
      intros HF HN. induction nodes as [|s nodes IH]; intros j u H HS Hj; cbn [add_subwoofers]; [eexists; reflexivity|]. cbn [length] in Hj.
      assert (Lj : j < Rows) by lia. destruct (add_subwoofer_total j s u (H s (or_introl eq_refl)) HS Lj HN) as (u1 & E1). rewrite E1. cbn [bind].
      pose proof (add_subwoofer_outcome True j s u HF (fun _ => I) HS Lj HN) as O. rewrite E1 in O. apply IH; [intros s' H'; apply H; now right|exact (proj1 O)|lia].
    Qed.
  End Subwoofers.
End Passes.
