(** Specification of the recursive filter (time-varying difference equation, cascade) and
    the refinement of the component to it. *)
From Verif Require Import Base Memory BiquadModel.
From Coq Require Import Ring.
Local Open Scope res_scope.

Section RowLemmas.
  Context {A : Type}.
  Lemma replace_row_length (l : list A) : forall i x, length (replace_row l i x) = length l.
  Proof. induction l as [|y l IH]; intros [|i] x; simpl; auto. Qed.
  Lemma replace_row_nth (l : list A) : forall i x j, i < length l ->
    nth_error (replace_row l i x) j = if j =? i then Some x else nth_error l j.
  Proof.
    induction l as [|y l IH]; intros [|i] x [|j] H; simpl in *; try lia; auto.
    apply IH. lia.
  Qed.
  Lemma row_ok (l : list A) i x : nth_error l i = Some x -> row l i = Ok x.
  Proof. unfold row. now intros ->. Qed.
End RowLemmas.

Section Spec.
  Context {T : Type} (rO rI : T) (radd rmul rsub : T -> T -> T) (ropp : T -> T).
  Variable RT : ring_theory rO rI radd rmul rsub ropp (@eq T).
  Add Ring TRing : RT.
  Notation "0" := rO. Notation "x + y" := (radd x y). Notation "x * y" := (rmul x y).
  Notation "x - y" := (rsub x y).
  Local Notation coeff := (coefficient T).

  (** *** Specification *)
  Definition no_filter : coeff := MkCoeff 0 0 0 0 0.
  (** the value [k] samples before sample [n]; zero before the start *)
  Definition past (n k : nat) (v : nat -> T) : T := if k <=? n then v (n - k)%nat else 0.

  (** [cs] are the coefficients in force at each sample. *)
  Definition tv_difference (cs : list coeff) (xs ys : list T) : Prop :=
    length cs = length xs /\ length ys = length xs
    /\ forall n, n < length xs ->
        let x i := nth i xs 0 in let y i := nth i ys 0 in let c i := nth i cs no_filter in
        y n = b0 (c n) * x n
              + past n 1 (fun i => b1 (c i) * x i) + past n 2 (fun i => b2 (c i) * x i)
              - past n 1 (fun i => a1 (c i) * y i) - past n 2 (fun i => a2 (c i) * y i).

  (** constant coefficients *)
  Definition difference_equation (c : coeff) (xs ys : list T) : Prop :=
    length ys = length xs
    /\ forall n, n < length xs ->
        let x i := nth i xs 0 in let y i := nth i ys 0 in
        y n = b0 c * x n + b1 c * past n 1 x + b2 c * past n 2 x
              - a1 c * past n 1 y - a2 c * past n 2 y.

  (** a chain of sections: [css] holds one coefficient stream per section *)
  Inductive tv_cascade : list (list coeff) -> list T -> list T -> Prop :=
  | tv_none xs : tv_cascade [] xs xs
  | tv_more cs css xs mid ys :
      tv_difference cs xs mid -> tv_cascade css mid ys -> tv_cascade (cs :: css) xs ys.
  Inductive cascade_equation : list coeff -> list T -> list T -> Prop :=
  | ce_none xs : cascade_equation [] xs xs
  | ce_more c cs xs mid ys :
      difference_equation c xs mid -> cascade_equation cs mid ys -> cascade_equation (c :: cs) xs ys.

  (** *** One section as a state machine *)
  Definition sec_step (c : coeff) (v : T * T) (x : T) : T * (T * T) :=
    let y := b0 c * x + fst v in
    (y, (snd v + b1 c * x - a1 c * y, b2 c * x - a2 c * y)).
  Fixpoint sec_run (v : T * T) (l : list (coeff * T)) : list T * (T * T) :=
    match l with
    | [] => ([], v)
    | (c, x) :: r => let '(y, v') := sec_step c v x in
                     let '(ys, v'') := sec_run v' r in (y :: ys, v'')
    end.

  Lemma sec_run_app v l1 l2 :
    sec_run v (l1 ++ l2)
    = (fst (sec_run v l1) ++ fst (sec_run (snd (sec_run v l1)) l2),
       snd (sec_run (snd (sec_run v l1)) l2)).
  Proof.
    revert v; induction l1 as [|[c x] l1 IH]; intros v.
    - simpl. now destruct (sec_run v l2).
    - simpl. rewrite IH.
      destruct (sec_run (snd v + b1 c * x - a1 c * (b0 c * x + fst v), b2 c * x - a2 c * (b0 c * x + fst v)) l1) as [ys v1].
      simpl. reflexivity.
  Qed.

  Lemma sec_run_length v l : length (fst (sec_run v l)) = length l.
  Proof.
    revert v; induction l as [|[c x] l IH]; intros v; simpl; [reflexivity|].
    specialize (IH (snd v + b1 c * x - a1 c * (b0 c * x + fst v), b2 c * x - a2 c * (b0 c * x + fst v))).
    destruct (sec_run _ l). simpl in *. now rewrite IH.
  Qed.

  (** the state after a history, expressed by the last two samples *)
  Definition history_state (cs : list coeff) (xs ys : list T) : T * T :=
    let n := length xs in
    let x i := nth i xs 0 in let y i := nth i ys 0 in let c i := nth i cs no_filter in
    (past n 1 (fun i => b1 (c i) * x i) + past n 2 (fun i => b2 (c i) * x i)
       - past n 1 (fun i => a1 (c i) * y i) - past n 2 (fun i => a2 (c i) * y i),
     past n 1 (fun i => b2 (c i) * x i) - past n 1 (fun i => a2 (c i) * y i)).

  Lemma past_1_snoc {B} (l : list B) (d b : B) (g : nat -> T) (h : B -> T) :
    (forall i, i < length (l ++ [b]) -> g i = h (nth i (l ++ [b]) d)) ->
    past (length (l ++ [b])) 1 g = h b.
  Proof.
    intros H. unfold past. rewrite app_length in *. simpl in *.
    replace (length l + 1)%nat with (S (length l)) by lia. simpl.
    rewrite H by lia. rewrite Nat.sub_0_r, app_nth2, Nat.sub_diag by lia. reflexivity.
  Qed.

  Lemma past_ext n k g h : (forall i, i < n -> k <= n -> i = (n - k)%nat -> g i = h i) -> 0 < k ->
    past n k g = past n k h.
  Proof.
    intros H K. unfold past. destruct (Nat.leb_spec k n); [|reflexivity]. apply H; lia.
  Qed.

  Lemma sec_run_spec l :
    let cs := map fst l in let xs := map snd l in
    let '(ys, v) := sec_run (0, 0) l in
    tv_difference cs xs ys /\ v = history_state cs xs ys.
  Proof.
    induction l as [|[c x] l IH] using rev_ind; cbn zeta.
    - simpl. split.
      + split; [reflexivity|]. split; [reflexivity|]. simpl. lia.
      + unfold history_state, past. simpl. f_equal; ring.
    - rewrite sec_run_app, !map_app.
      set (cs := map fst l) in *. set (xs := map snd l) in *.
      destruct (sec_run (0, 0) l) as [ys v] eqn:E. cbn zeta in IH.
      destruct IH as [(L1 & L2 & D) Hv]. cbn [fst snd].
      set (y := b0 c * x + fst v).
      assert (N : length l = length xs) by (unfold xs; now rewrite map_length).
      assert (Old : forall i, i < length xs ->
        nth i (xs ++ [x]) 0 = nth i xs 0 /\ nth i (ys ++ [y]) 0 = nth i ys 0
        /\ nth i (cs ++ [c]) no_filter = nth i cs no_filter).
      { intros i Hi. rewrite !app_nth1 by lia. auto. }
      assert (New : nth (length xs) (xs ++ [x]) 0 = x /\ nth (length xs) (ys ++ [y]) 0 = y
        /\ nth (length xs) (cs ++ [c]) no_filter = c).
      { rewrite !app_nth2 by lia. replace (length xs - length ys)%nat with O by lia.
        replace (length xs - length cs)%nat with O by lia. rewrite Nat.sub_diag. auto. }
      destruct New as (Nx & Ny & Nc).
      change (sec_run v [(c, x)]) with ([y], (snd v + b1 c * x - a1 c * y, b2 c * x - a2 c * y)).
      cbn [fst snd map]. split.
      + split; [rewrite !app_length; simpl; lia|]. split; [rewrite !app_length; simpl; lia|].
        intros n Hn. rewrite app_length in Hn. simpl in Hn. cbn zeta.
        destruct (Nat.eq_dec n (length xs)) as [->|Hne].
        * rewrite Nx, Ny, Nc. unfold y at 1. rewrite Hv. unfold history_state. cbn [fst].
          rewrite (past_ext (length xs) 1 (fun i => b1 (nth i (cs ++ [c]) no_filter) * nth i (xs ++ [x]) 0)
                     (fun i => b1 (nth i cs no_filter) * nth i xs 0))
            by (try lia; intros i Hi _ _; destruct (Old i Hi) as (-> & _ & ->); reflexivity).
          rewrite (past_ext (length xs) 2 (fun i => b2 (nth i (cs ++ [c]) no_filter) * nth i (xs ++ [x]) 0)
                     (fun i => b2 (nth i cs no_filter) * nth i xs 0))
            by (try lia; intros i Hi _ _; destruct (Old i Hi) as (-> & _ & ->); reflexivity).
          rewrite (past_ext (length xs) 1 (fun i => a1 (nth i (cs ++ [c]) no_filter) * nth i (ys ++ [y]) 0)
                     (fun i => a1 (nth i cs no_filter) * nth i ys 0))
            by (try lia; intros i Hi _ _; destruct (Old i Hi) as (_ & -> & ->); reflexivity).
          rewrite (past_ext (length xs) 2 (fun i => a2 (nth i (cs ++ [c]) no_filter) * nth i (ys ++ [y]) 0)
                     (fun i => a2 (nth i cs no_filter) * nth i ys 0))
            by (try lia; intros i Hi _ _; destruct (Old i Hi) as (_ & -> & ->); reflexivity).
          ring.
        * assert (Hlt : n < length xs) by lia.
          destruct (Old n Hlt) as (-> & -> & ->). specialize (D n Hlt). cbn zeta in D. rewrite D.
          rewrite (past_ext n 1 (fun i => b1 (nth i (cs ++ [c]) no_filter) * nth i (xs ++ [x]) 0)
                     (fun i => b1 (nth i cs no_filter) * nth i xs 0))
            by (try lia; intros i Hi _ _; destruct (Old i ltac:(lia)) as (-> & _ & ->); reflexivity).
          rewrite (past_ext n 2 (fun i => b2 (nth i (cs ++ [c]) no_filter) * nth i (xs ++ [x]) 0)
                     (fun i => b2 (nth i cs no_filter) * nth i xs 0))
            by (try lia; intros i Hi _ _; destruct (Old i ltac:(lia)) as (-> & _ & ->); reflexivity).
          rewrite (past_ext n 1 (fun i => a1 (nth i (cs ++ [c]) no_filter) * nth i (ys ++ [y]) 0)
                     (fun i => a1 (nth i cs no_filter) * nth i ys 0))
            by (try lia; intros i Hi _ _; destruct (Old i ltac:(lia)) as (_ & -> & ->); reflexivity).
          rewrite (past_ext n 2 (fun i => a2 (nth i (cs ++ [c]) no_filter) * nth i (ys ++ [y]) 0)
                     (fun i => a2 (nth i cs no_filter) * nth i ys 0))
            by (try lia; intros i Hi _ _; destruct (Old i ltac:(lia)) as (_ & -> & ->); reflexivity).
          reflexivity.
      + unfold history_state. rewrite app_length. simpl length.
        assert (P1 : forall (g : nat -> T), past (length xs + 1) 1 g = g (length xs)).
        { intros g. unfold past. destruct (Nat.leb_spec 1 (length xs + 1)); [|lia]. f_equal. lia. }
        assert (P2 : forall (g h : nat -> T), (forall i, i < length xs -> g i = h i) ->
                   past (length xs + 1) 2 g = past (length xs) 1 h).
        { intros g h H. unfold past.
          destruct (Nat.leb_spec 2 (length xs + 1)), (Nat.leb_spec 1 (length xs)); try lia; auto.
          replace (length xs + 1 - 2)%nat with (length xs - 1)%nat by lia. apply H. lia. }
        rewrite !P1, Nx, Ny, Nc.
        rewrite (P2 _ (fun i => b2 (nth i cs no_filter) * nth i xs 0))
          by (intros i Hi; destruct (Old i Hi) as (-> & _ & ->); reflexivity).
        rewrite (P2 _ (fun i => a2 (nth i cs no_filter) * nth i ys 0))
          by (intros i Hi; destruct (Old i Hi) as (_ & -> & ->); reflexivity).
        rewrite Hv. unfold history_state. cbn [snd]. f_equal; ring.
  Qed.

  Lemma tv_constant c xs ys :
    tv_difference (repeat c (length xs)) xs ys <-> difference_equation c xs ys.
  Proof.
    unfold tv_difference, difference_equation. cbn zeta.
    assert (P : forall n k (f : coeff -> T) (g : nat -> T), n < length xs ->
      past n k (fun i => f (nth i (repeat c (length xs)) no_filter) * g i) = f c * past n k g).
    { intros n k f g Hn. unfold past. destruct (k <=? n).
      - rewrite (nth_indep _ no_filter c) by (rewrite repeat_length; lia). now rewrite nth_repeat.
      - ring. }
    assert (R : forall n, n < length xs -> nth n (repeat c (length xs)) no_filter = c).
    { intros n Hn. rewrite (nth_indep _ no_filter c) by (rewrite repeat_length; lia). apply nth_repeat. }
    split.
    - intros (_ & L & D). split; [exact L|]. intros n Hn. specialize (D n Hn).
      rewrite !P, R in D by lia. exact D.
    - intros (L & D). split; [apply repeat_length|]. split; [exact L|]. intros n Hn.
      rewrite !P, R by lia. apply D. exact Hn.
  Qed.

  (** The difference equation determines the output. *)
  Lemma tv_difference_unique cs xs ys zs :
    tv_difference cs xs ys -> tv_difference cs xs zs -> ys = zs.
  Proof.
    intros (L0 & L1 & D1) (_ & L2 & D2). cbn zeta in *.
    assert (G : forall n i, i < n -> nth i ys 0 = nth i zs 0).
    { induction n as [|n IH]; intros i Hi; [lia|].
      destruct (Nat.eq_dec i n) as [->|]; [|apply IH; lia].
      destruct (le_dec (length xs) n).
      { rewrite !nth_overflow by lia. reflexivity. }
      rewrite D1, D2 by lia.
      assert (E : forall k (f : nat -> T), 0 < k ->
         past n k (fun i => f i * nth i ys 0) = past n k (fun i => f i * nth i zs 0)).
      { intros k f Hk. apply past_ext; [|exact Hk]. intros i Hi' _ _. now rewrite IH. }
      rewrite (E 1 (fun i => a1 (nth i cs no_filter))), (E 2 (fun i => a2 (nth i cs no_filter))) by lia.
      reflexivity. }
    apply (nth_ext _ _ 0 0); [lia|]. intros n Hn. apply (G (S n)). lia.
  Qed.

  Lemma tv_cascade_unique css xs ys : tv_cascade css xs ys -> forall zs, tv_cascade css xs zs -> ys = zs.
  Proof.
    induction 1 as [xs|cs css xs mid ys D C IH]; intros zs H; inversion H; subst; [reflexivity|].
    assert (mid0 = mid) by (eapply tv_difference_unique; eauto). subst. auto.
  Qed.

  Lemma cascade_constant cs xs ys :
    tv_cascade (map (fun c => repeat c (length xs)) cs) xs ys <-> cascade_equation cs xs ys.
  Proof.
    revert xs; induction cs as [|c cs IH]; intros xs; simpl; split; intros H.
    - inversion H; subst. constructor.
    - inversion H; subst. constructor.
    - inversion H as [|? ? ? mid ? D C]; subst. apply tv_constant in D.
      econstructor; [exact D|]. destruct D as [L _]. rewrite <- L in C. apply IH. exact C.
    - inversion H as [|? ? ? mid ? D C]; subst.
      econstructor; [apply tv_constant; exact D|]. destruct D as [L _]. rewrite <- L. apply IH. exact C.
  Qed.

  (** *** A cascade as a state machine *)
  Fixpoint cas_run (vs : list (T * T)) (css : list (list coeff)) (xs : list T) : list T * list (T * T) :=
    match vs, css with
    | v :: vs', cs :: css' =>
        let '(mid, v') := sec_run v (combine cs xs) in
        let '(ys, vs'') := cas_run vs' css' mid in (ys, v' :: vs'')
    | _, _ => (xs, vs)
    end.

  Lemma cas_run_length css : forall vs xs, length vs = length css ->
    (forall cs, In cs css -> length cs = length xs) ->
    length (fst (cas_run vs css xs)) = length xs /\ length (snd (cas_run vs css xs)) = length vs.
  Proof.
    induction css as [|cs css IH]; intros [|v vs] xs L H; simpl in *; try discriminate; [auto|].
    assert (Lm := sec_run_length v (combine cs xs)).
    destruct (sec_run v (combine cs xs)) as [mid v'] eqn:E. simpl in Lm.
    rewrite combine_length, (H cs) in Lm by auto. rewrite Nat.min_id in Lm.
    destruct (IH vs mid ltac:(lia)) as [I1 I2].
    { intros c' Hc. rewrite Lm. auto. }
    destruct (cas_run vs css mid). simpl in *. lia.
  Qed.

  Lemma combine_app {A B} (a1' a2' : list A) (b1' b2' : list B) : length a1' = length b1' ->
    combine (a1' ++ a2') (b1' ++ b2') = combine a1' b1' ++ combine a2' b2'.
  Proof.
    revert b1'; induction a1' as [|a a1' IH]; intros [|b b1'] L; simpl in *; try discriminate; auto.
    f_equal. apply IH. lia.
  Qed.

  (** processing block by block is processing the concatenation *)
  Definition glue (css1 css2 : list (list coeff)) : list (list coeff) :=
    map (fun p => fst p ++ snd p) (combine css1 css2).

  Lemma cas_run_app css1 : forall css2 vs xs1 xs2,
    length css1 = length css2 -> length vs = length css1 ->
    (forall cs, In cs css1 -> length cs = length xs1) ->
    let '(ys1, vs1) := cas_run vs css1 xs1 in
    let '(ys2, vs2) := cas_run vs1 css2 xs2 in
    cas_run vs (glue css1 css2) (xs1 ++ xs2) = (ys1 ++ ys2, vs2).
  Proof.
    induction css1 as [|c1 css1 IH]; intros [|c2 css2] [|v vs] xs1 xs2 L Lv H; simpl in *;
      try discriminate; [reflexivity|].
    assert (Lm := sec_run_length v (combine c1 xs1)).
    rewrite combine_app, sec_run_app by auto.
    destruct (sec_run v (combine c1 xs1)) as [mid1 v1] eqn:E1. cbn [fst snd] in *.
    rewrite combine_length, (H c1), Nat.min_id in Lm by auto.
    assert (Hm : forall cs, In cs css1 -> length cs = length mid1)
      by (intros c Hc; rewrite Lm; auto).
    assert (I := IH css2 vs mid1 (fst (sec_run v1 (combine c2 xs2))) ltac:(lia) ltac:(lia) Hm).
    revert I.
    destruct (cas_run vs css1 mid1) as [ys1 vs1] eqn:R1.
    cbn [fst snd]. destruct (sec_run v1 (combine c2 xs2)) as [mid2 v2] eqn:E2. cbn [fst snd] in *.
    destruct (cas_run vs1 css2 mid2) as [ys2 vs2] eqn:R2.
    fold (glue css1 css2). intros I. simpl. rewrite E2, R2, I. reflexivity.
  Qed.

  Lemma cas_run_spec css : forall xs, (forall cs, In cs css -> length cs = length xs) ->
    tv_cascade css xs (fst (cas_run (repeat (0, 0) (length css)) css xs)).
  Proof.
    induction css as [|cs css IH]; intros xs H; simpl; [constructor|].
    assert (S := sec_run_spec (combine cs xs)). cbn zeta in S.
    assert (Lc : length cs = length xs) by (apply H; now left).
    assert (Lm := sec_run_length (0, 0) (combine cs xs)).
    destruct (sec_run (0, 0) (combine cs xs)) as [mid v]. destruct S as [S _]. cbn [fst] in Lm.
    rewrite combine_length, Lc, Nat.min_id in Lm.
    assert (M1 : map fst (combine cs xs) = cs).
    { clear - Lc. revert xs Lc; induction cs; intros [|x xs] L; simpl in *; try discriminate; auto.
      f_equal. apply IHcs. lia. }
    assert (M2 : map snd (combine cs xs) = xs).
    { clear - Lc. revert cs Lc; induction xs; intros [|x cs] L; simpl in *; try discriminate; auto.
      f_equal. apply IHxs. lia. }
    rewrite M1, M2 in S.
    specialize (IH mid). destruct (cas_run (repeat (0, 0) (length css)) css mid) as [ys vs].
    cbn [fst] in *. econstructor; [exact S|]. apply IH. intros c Hc. rewrite Lm. apply H. now right.
  Qed.
End Spec.
