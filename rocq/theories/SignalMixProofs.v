(** Proofs about rcl::SignalRouting: the table as a relation, the mix as a sum. *)
From Verif Require Import Base OrdSet SignalRoutingModel.
From Coq Require Import Sorted List Lia.
Import ListNotations.
Local Open Scope res_scope.
Local Open Scope nat_scope.

Lemma t_less_spec a b : t_less a b = true <-> pair_lt a b.
Proof.
  unfold t_less, pair_lt. destruct a as [a1 a2], b as [b1 b2]; simpl.
  destruct (Nat.ltb_spec a1 b1); simpl; [split; auto|].
  destruct (Nat.eqb_spec a1 b1); simpl; [|split; [discriminate|lia]].
  rewrite Nat.ltb_lt. lia.
Qed.
(** the table represents the relation [rel : (output, input) -> bool] *)
Definition trepr (t : list (nat * nat)) (rel : nat * nat -> bool) : Prop :=
  StronglySorted pair_lt t /\ forall k, In k t <-> rel k = true.
Definition rset (rel : nat * nat -> bool) (k : nat * nat) (b : bool) : nat * nat -> bool :=
  fun k' => if pair_eqb k' k then b else rel k'.
Definition rempty : nat * nat -> bool := fun _ => false.

Lemma trepr_repr t rel : trepr t rel <-> repr (fun k => k) pair_lt t (fun k => if rel k then Some k else None).
Proof.
  unfold trepr, repr, sorted. split; intros [S M]; split; auto.
  - intros k x. specialize (M k). destruct (rel k).
    + split; [intros [= <-]; split; [now apply M|reflexivity]|intros [_ ->]; reflexivity].
    + split; [discriminate|]. intros [H ->]. apply M in H. discriminate.
  - intros k. specialize (M k k). destruct (rel k).
    + split; [reflexivity|]. intros _. now apply M.
    + split; [|discriminate]. intros H. discriminate (proj2 M (conj H eq_refl)).
Qed.
Lemma trepr_empty : trepr [] rempty.
Proof. split; [constructor|]. intros k. split; [intros []|discriminate]. Qed.
Lemma trepr_ext t r r' : (forall k, r k = r' k) -> trepr t r -> trepr t r'.
Proof. intros E [S M]. split; [exact S|]. intros k. now rewrite <- E. Qed.
Lemma trepr_insert t rel k : trepr t rel -> trepr (fst (set_insert t_less k t)) (rset rel k true).
Proof.
  intros P. assert (Q := proj1 (trepr_repr t rel) P). destruct (rel k) eqn:E.
  - rewrite (insert_old t_less (fun k => k) pair_lt t_less_spec pl_irr pl_trans t _ k k Q) by now rewrite E.
    refine (trepr_ext _ _ _ _ P). intros k'. unfold rset. destruct (pair_eqb_spec k' k); [now subst|reflexivity].
  - destruct (insert_new t_less (fun k => k) pair_eqb pair_lt pair_eqb_spec t_less_spec pl_trans pl_total t _ k Q) as (t' & E' & Q').
    { now rewrite E. }
    rewrite E'. cbn [fst]. apply trepr_repr. refine (repr_ext _ _ _ _ _ _ Q'). intros k'. unfold mset, rset.
    destruct (pair_eqb_spec k' k); [now subst|reflexivity].
Qed.
Lemma trepr_find t rel k : trepr t rel -> set_find t_less k t = if rel k then Some k else None.
Proof.
  intros P. apply trepr_repr in P.
  now rewrite (find_repr t_less (fun k => k) pair_eqb pair_lt pair_eqb_spec t_less_spec pl_irr pl_total t _ k P).
Qed.
Lemma trepr_erase t rel k : trepr t rel -> trepr (set_erase t_less k t) (rset rel k false).
Proof.
  intros P. apply trepr_repr in P. apply trepr_repr.
  refine (repr_ext _ _ _ _ _ _ (erase_repr t_less (fun k => k) pair_eqb pair_lt pair_eqb_spec t_less_spec pl_irr pl_total t _ k P)).
  intros k'. unfold mset, rset. now destruct (pair_eqb k' k).
Qed.

Section Mix.
  Context {R : Type} (zero : R) (add : R -> R -> R).

  Lemma upd_length {A} (l : list A) k f : length (upd l k f) = length l.
  Proof. revert k. induction l as [|x l IH]; intros [|k]; simpl; auto. Qed.
  Lemma upd_nth {A} (l : list A) k f j : nth_error (upd l k f) j = if j =? k then option_map f (nth_error l j) else nth_error l j.
  Proof.
    revert k j. induction l as [|x l IH]; intros k j; [destruct k, j; simpl; try reflexivity; now destruct (_ =? _)|].
    destruct k, j; simpl; auto.
  Qed.
  Lemma add_inplace_length x y : length (add_inplace add x y) = length y.
  Proof. revert x. induction y as [|d y IH]; intros [|a x]; simpl; auto. Qed.
  Lemma add_inplace_nth x y t a d : nth_error x t = Some a -> nth_error y t = Some d ->
    nth_error (add_inplace add x y) t = Some (add d a).
  Proof.
    revert x t. induction y as [|e y IH]; intros [|b x] [|t]; simpl; try discriminate.
    - now intros [= ->] [= ->].
    - apply IH.
  Qed.

  (** Specification of one output sample: the inputs connected to output [o], added in
      ascending order *)
  Definition mixed (rel : nat * nat -> bool) (width : nat) (x : nat -> nat -> R) (o t : nat) : R :=
    fold_left (fun acc i => if rel (o, i) then add acc (x i t) else acc) (seq 0 width) zero.

  (** sample matrix given by channels *)
  Definition samples (x : list (list R)) (i t : nat) : R := nth t (nth i x []) zero.

  Definition shaped (n p : nat) (x : list (list R)) : Prop := length x = n /\ Forall (fun c => length c = p) x.
  Lemma shaped_nth n p x i : shaped n p x -> i < n -> exists c, nth_error x i = Some c /\ length c = p.
  Proof.
    intros [L F] H. destruct (nth_error x i) as [c|] eqn:E.
    - exists c. split; [reflexivity|]. rewrite Forall_forall in F. apply F. now apply nth_error_In in E.
    - apply nth_error_None in E. lia.
  Qed.
  Lemma samples_nth x i t c a : nth_error x i = Some c -> nth_error c t = Some a -> samples x i t = a.
  Proof. intros H K. unfold samples. rewrite (nth_error_nth _ _ _ H). now apply nth_error_nth. Qed.

  Lemma mix_loop p wi wo x : shaped wi p x -> forall table y, shaped wo p y ->
    (forall o i, In (o, i) table -> o < wo /\ i < wi) ->
    exists y', r_mix add table x y = Ok y' /\ shaped wo p y'
      /\ forall o t, o < wo -> t < p ->
         samples y' o t = fold_left (fun acc e => if fst e =? o then add acc (samples x (snd e) t) else acc) table (samples y o t).
  Proof.
    intros Sx. unfold r_mix. induction table as [|[o i] table IH]; intros y Sy H; cbn [loop].
    - exists y. split; [reflexivity|]. split; [exact Sy|]. reflexivity.
    - destruct (H o i (or_introl eq_refl)) as [Ho Hi].
      destruct (shaped_nth wi p x i Sx Hi) as (xi & Ex & Lx). destruct (shaped_nth wo p y o Sy Ho) as (yo & Ey & Ly).
      rewrite Ex, Ey. cbn [bind].
      assert (S1 : shaped wo p (upd y o (add_inplace add xi))).
      { destruct Sy as [L F]. split; [now rewrite upd_length|]. apply Forall_forall. intros c Hc.
        apply In_nth_error in Hc as [j Hj]. rewrite upd_nth in Hj. rewrite Forall_forall in F.
        destruct (j =? o); [|apply F; now apply nth_error_In in Hj].
        destruct (nth_error y j) as [d|] eqn:Ed; [|discriminate]. injection Hj as <-. rewrite add_inplace_length.
        apply F. now apply nth_error_In in Ed. }
      destruct (IH _ S1) as (y' & E & S' & V); [intros; apply H; now right|].
      exists y'. split; [exact E|]. split; [exact S'|]. intros o' t Ho' Ht. rewrite (V o' t Ho' Ht). cbn [fold_left fst snd].
      f_equal. destruct (shaped_nth wo p y o' Sy Ho') as (yo' & Ey' & Ly').
      assert (exists d, nth_error yo' t = Some d) as (d & Ed).
      { destruct (nth_error yo' t) eqn:N; [eauto|]. apply nth_error_None in N. lia. }
      rewrite (samples_nth y o' t yo' d Ey' Ed). destruct (Nat.eqb_spec o o') as [<-|Q].
      + assert (exists a, nth_error xi t = Some a) as (a & Ea).
        { destruct (nth_error xi t) eqn:N; [eauto|]. apply nth_error_None in N. lia. }
        rewrite (samples_nth x i t xi a Ex Ea).
        apply (samples_nth _ o t (add_inplace add xi yo') _).
        * rewrite upd_nth, Nat.eqb_refl, Ey'. reflexivity.
        * now apply add_inplace_nth.
      + apply (samples_nth _ o' t yo' d); [|exact Ed]. rewrite upd_nth.
        destruct (Nat.eqb_spec o' o); [congruence|exact Ey'].
  Qed.

  Lemma sorted_lists_equal (l l' : list nat) : StronglySorted lt l -> StronglySorted lt l' ->
    (forall x, In x l <-> In x l') -> l = l'.
  Proof.
    intros S S' I. apply (repr_functional (fun k => k) lt Nat.lt_irrefl Nat.lt_trans l l'
      (fun k => if in_dec Nat.eq_dec k l then Some k else None)).
    - split; [exact S|]. intros k x. destruct (in_dec Nat.eq_dec k l) as [H|H]; split.
      + intros [= <-]. auto.
      + intros [_ ->]. reflexivity.
      + discriminate.
      + intros [H' ->]. contradiction.
    - split; [exact S'|]. intros k x. destruct (in_dec Nat.eq_dec k l) as [H|H]; split.
      + intros [= <-]. split; [now apply I|reflexivity].
      + intros [_ ->]. reflexivity.
      + discriminate.
      + intros [H' ->]. apply I in H'. contradiction.
  Qed.
  Lemma filter_sorted {A} (lt : A -> A -> Prop) (f : A -> bool) l : StronglySorted lt l -> StronglySorted lt (filter f l).
  Proof.
    induction 1 as [|x l S IH F]; simpl; [constructor|]. destruct (f x); [|exact IH]. constructor; [exact IH|].
    rewrite Forall_forall in *. intros y Hy. apply filter_In in Hy as [Hy _]. auto.
  Qed.
  Lemma seq_sorted n a : StronglySorted lt (seq a n).
  Proof.
    revert a. induction n as [|n IH]; intros a; simpl; [constructor|]. constructor; [apply IH|].
    apply Forall_forall. intros x Hx. apply in_seq in Hx. lia.
  Qed.
  (** the inputs of one output, in the order of the table *)
  Lemma inputs_of table rel o w : trepr table rel -> (forall o i, rel (o, i) = true -> i < w) ->
    map snd (filter (fun e => fst e =? o) table) = filter (fun i => rel (o, i)) (seq 0 w).
  Proof.
    intros [S M] W. apply sorted_lists_equal.
    - assert (F := filter_sorted pair_lt (fun e => fst e =? o) table S).
      assert (G : Forall (fun e => fst e = o) (filter (fun e => fst e =? o) table)).
      { apply Forall_forall. intros e He. apply filter_In in He as [_ He]. now apply Nat.eqb_eq. }
      induction F as [|x l F IH Fl]; [constructor|]. simpl. constructor; [apply IH; now inversion G|].
      rewrite Forall_forall in *. intros y Hy. apply in_map_iff in Hy as (z & <- & Hz).
      assert (Fx := G x (or_introl eq_refl)). assert (Fz := G z (or_intror Hz)). specialize (Fl z Hz).
      unfold pair_lt in Fl. lia.
    - apply filter_sorted, seq_sorted.
    - intros i. rewrite in_map_iff, filter_In, in_seq. split.
      + intros ([o' i'] & <- & H). apply filter_In in H as [H E]. cbn in E. apply Nat.eqb_eq in E. subst o'. cbn [snd].
        apply M in H. split; [|exact H]. specialize (W _ _ H). lia.
      + intros [_ H]. exists (o, i). split; [reflexivity|]. apply filter_In. split; [now apply M|]. apply Nat.eqb_refl.
  Qed.
  Lemma fold_filter {A B} (f : A -> B -> A) (p : B -> bool) l a :
    fold_left (fun acc x => if p x then f acc x else acc) l a = fold_left f (filter p l) a.
  Proof. revert a. induction l as [|x l IH]; intros a; simpl; [reflexivity|]. destruct (p x); simpl; auto. Qed.
  Lemma fold_map {A B C} (f : A -> C -> A) (g : B -> C) l a : fold_left (fun acc x => f acc (g x)) l a = fold_left f (map g l) a.
  Proof. revert a. induction l as [|x l IH]; intros a; simpl; auto. Qed.

  Lemma mix_ok p wi wo x table rel : shaped wi p x -> trepr table rel ->
    (forall o i, rel (o, i) = true -> o < wo /\ i < wi) ->
    r_mix add table x (repeat (repeat zero p) wo)
    = Ok (map (fun o => map (fun t => mixed rel wi (samples x) o t) (seq 0 p)) (seq 0 wo)).
  Proof.
    intros Sx T W.
    assert (S0 : shaped wo p (repeat (repeat zero p) wo)).
    { split; [apply repeat_length|]. apply Forall_forall. intros c Hc. apply repeat_spec in Hc. subst. apply repeat_length. }
    destruct (mix_loop p wi wo x Sx table _ S0) as (y & E & Sy & V).
    { intros o i H. apply W. now apply T. }
    rewrite E. f_equal. apply (nth_ext _ _ [] []); [destruct Sy as [L _]; now rewrite map_length, seq_length|].
    intros o Ho. assert (Hw : o < wo) by (destruct Sy as [L _]; lia). clear Ho.
    destruct (shaped_nth wo p y o Sy Hw) as (yo & Ey & Ly).
    set (g := fun o => map (fun t => mixed rel wi (samples x) o t) (seq 0 p)).
    assert (Eo : nth o (map g (seq 0 wo)) [] = g o).
    { rewrite nth_indep with (d' := g 0) by (rewrite map_length, seq_length; exact Hw).
      rewrite map_nth, seq_nth by exact Hw. reflexivity. }
    rewrite Eo. apply (nth_ext _ _ zero zero).
    { rewrite (nth_error_nth _ _ _ Ey). unfold g. now rewrite map_length, seq_length. }
    intros t Ht. rewrite (nth_error_nth _ _ _ Ey) in Ht. rewrite Ly in Ht.
    change (nth t (nth o y []) zero) with (samples y o t). rewrite (V o t Hw Ht).
    unfold g. rewrite nth_indep with (d' := mixed rel wi (samples x) o 0) by (rewrite map_length, seq_length; exact Ht).
    rewrite (map_nth (fun t => mixed rel wi (samples x) o t)), seq_nth by exact Ht. cbn [Nat.add].
    assert (Z : samples (repeat (repeat zero p) wo) o t = zero).
    { unfold samples. destruct (shaped_nth wo p _ o S0 Hw) as (c & Ec & _). rewrite (nth_error_nth _ _ _ Ec).
      apply nth_error_In in Ec. apply repeat_spec in Ec. subst c.
      destruct (nth_in_or_default t (repeat zero p) zero) as [H|H]; [now apply repeat_spec in H|exact H]. }
    rewrite Z. unfold mixed.
    rewrite (fold_filter (fun acc e => add acc (samples x (snd e) t)) (fun e => fst e =? o)).
    rewrite (fold_filter (fun acc i => add acc (samples x i t)) (fun i => rel (o, i))).
    rewrite <- (inputs_of table rel o wi T) by (intros o' i' H'; now apply (W o' i')).
    now rewrite <- (fold_map (fun acc i => add acc (samples x i t)) snd).
  Qed.
End Mix.
