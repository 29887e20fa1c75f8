(** Bounds-checked array memory.  Access outside the array is undefined behaviour
    ([UB]); there are no default values. *)
From Verif Require Import Base.

Section Memory.
  Context {A : Type}.

  (** Read [n] consecutive elements starting at [off]. *)
  Definition mem_read (l : list A) (off n : nat) : res (list A) :=
    if off + n <=? length l then Ok (firstn n (skipn off l)) else UB.

  (** Write the elements [d] starting at [off]. *)
  Definition mem_write (l : list A) (off : nat) (d : list A) : res (list A) :=
    if off + length d <=? length l
    then Ok (firstn off l ++ d ++ skipn (off + length d) l) else UB.

  (** std::copy / vectorCopy of [n] elements out of a source array. *)
  Definition src_read (src : list A) (n : nat) : res (list A) := mem_read src 0 n.

  Lemma nth_error_skipn (l : list A) : forall off i,
    nth_error (skipn off l) i = nth_error l (off + i).
  Proof.
    induction l as [|x l IH]; intros [|off] i; simpl; try reflexivity.
    - now destruct i.
    - apply IH.
  Qed.

  Lemma nth_error_firstn (l : list A) : forall n i,
    nth_error (firstn n l) i = if i <? n then nth_error l i else None.
  Proof.
    induction l as [|x l IH]; intros [|n] [|i]; simpl; try reflexivity.
    - destruct (S i <? S n); reflexivity.
    - rewrite IH. reflexivity.
  Qed.

  Lemma nth_error_ext (l1 l2 : list A) :
    (forall i, nth_error l1 i = nth_error l2 i) -> l1 = l2.
  Proof.
    revert l2; induction l1 as [|x l1 IH]; intros [|y l2] H; try reflexivity.
    - specialize (H 0); discriminate.
    - specialize (H 0); discriminate.
    - f_equal; [specialize (H 0); simpl in H; congruence|].
      apply IH. intros i. exact (H (S i)).
  Qed.

  Lemma nth_error_lt (l : list A) i : i < length l -> exists x, nth_error l i = Some x.
  Proof.
    intros H. destruct (nth_error l i) eqn:E; [eauto|].
    apply nth_error_None in E. lia.
  Qed.

  Lemma mem_read_ok l off n :
    off + n <= length l ->
    exists d, mem_read l off n = Ok d /\ length d = n
              /\ forall i, nth_error d i = if i <? n then nth_error l (off + i) else None.
  Proof.
    intros H. unfold mem_read. apply Nat.leb_le in H as H'. rewrite H'.
    eexists; split; [reflexivity|]. split.
    - rewrite firstn_length, skipn_length. lia.
    - intros i. rewrite nth_error_firstn, nth_error_skipn. reflexivity.
  Qed.

  Lemma mem_read_inv l off n d :
    mem_read l off n = Ok d ->
    off + n <= length l /\ length d = n
    /\ forall i, nth_error d i = if i <? n then nth_error l (off + i) else None.
  Proof.
    intros H. assert (off + n <= length l).
    { unfold mem_read in H. destruct (Nat.leb_spec (off + n) (length l)); [assumption|discriminate]. }
    destruct (mem_read_ok l off n) as (d' & E & L & N); [assumption|].
    assert (d' = d) by congruence. subst. auto.
  Qed.

  Lemma mem_write_ok l off d :
    off + length d <= length l ->
    exists l', mem_write l off d = Ok l' /\ length l' = length l
      /\ forall i, nth_error l' i
           = if (off <=? i) && (i <? off + length d) then nth_error d (i - off)
             else nth_error l i.
  Proof.
    intros H. unfold mem_write. apply Nat.leb_le in H as H'. rewrite H'.
    eexists; split; [reflexivity|]. split.
    - rewrite !app_length, firstn_length, skipn_length. lia.
    - intros i. destruct (Nat.leb_spec off i); simpl.
      + rewrite nth_error_app2 by (rewrite firstn_length; lia).
        rewrite firstn_length, Nat.min_l by lia.
        destruct (Nat.ltb_spec i (off + length d)).
        * rewrite nth_error_app1 by lia. reflexivity.
        * rewrite nth_error_app2 by lia. rewrite nth_error_skipn. f_equal. lia.
      + rewrite nth_error_app1 by (rewrite firstn_length; lia).
        rewrite nth_error_firstn. destruct (Nat.ltb_spec i off); [reflexivity|lia].
  Qed.

  Lemma mem_write_inv l off d l' :
    mem_write l off d = Ok l' ->
    off + length d <= length l /\ length l' = length l
      /\ forall i, nth_error l' i
           = if (off <=? i) && (i <? off + length d) then nth_error d (i - off)
             else nth_error l i.
  Proof.
    intros H. assert (off + length d <= length l).
    { unfold mem_write in H. destruct (Nat.leb_spec (off + length d) (length l)); [assumption|discriminate]. }
    destruct (mem_write_ok l off d) as (d' & E & L & N); [assumption|].
    assert (d' = l') by congruence. subst. auto.
  Qed.

  Lemma mem_read_app (a b c : list A) : mem_read (a ++ b ++ c) (length a) (length b) = Ok b.
  Proof.
    unfold mem_read. rewrite !app_length.
    destruct (Nat.leb_spec (length a + length b) (length a + (length b + length c))); [|lia].
    rewrite skipn_app, skipn_all, Nat.sub_diag. simpl.
    rewrite firstn_app, firstn_all, Nat.sub_diag. simpl. now rewrite app_nil_r.
  Qed.
End Memory.

(** Apply a fallible function to corresponding elements of two lists (one call per
    channel); different lengths mean that a pointer array is too short. *)
Fixpoint map2_res {A B C} (f : A -> B -> res C) (l1 : list A) (l2 : list B) : res (list C) :=
  match l1, l2 with
  | [], _ => Ok []
  | _ :: _, [] => UB
  | x :: r1, y :: r2 => bind (f x y) (fun z => bind (map2_res f r1 r2) (fun r => Ok (z :: r)))
  end.

Fixpoint map_res {A B} (f : A -> res B) (l : list A) : res (list B) :=
  match l with
  | [] => Ok []
  | x :: r => bind (f x) (fun z => bind (map_res f r) (fun r => Ok (z :: r)))
  end.

Lemma map_res_ok {A B} (f : A -> res B) (l : list A) :
  (forall x, In x l -> exists y, f x = Ok y) ->
  exists r, map_res f l = Ok r /\ Forall2 (fun x y => f x = Ok y) l r.
Proof.
  induction l as [|x l IH]; intros H; simpl.
  - eexists; split; [reflexivity|constructor].
  - destruct (H x) as [y Ey]; [now left|].
    destruct IH as (r & E & F); [intros; apply H; now right|].
    rewrite Ey, E. simpl. eexists; split; [reflexivity|]. now constructor.
Qed.

Lemma map2_res_ok {A B C} (f : A -> B -> res C) : forall (l1 : list A) (l2 : list B),
  length l1 <= length l2 ->
  (forall i x y, nth_error l1 i = Some x -> nth_error l2 i = Some y -> exists z, f x y = Ok z) ->
  exists r, map2_res f l1 l2 = Ok r /\ length r = length l1
    /\ forall i x y, nth_error l1 i = Some x -> nth_error l2 i = Some y ->
         exists z, nth_error r i = Some z /\ f x y = Ok z.
Proof.
  induction l1 as [|x l1 IH]; intros l2 L H; simpl.
  - exists []; repeat split. intros [|i]; discriminate.
  - destruct l2 as [|y l2]; simpl in L; [lia|].
    destruct (H 0 x y eq_refl eq_refl) as [z Ez].
    destruct (IH l2) as (r & E & Lr & F); [lia|intros i a b Ha Hb; exact (H (S i) a b Ha Hb)|].
    rewrite Ez, E. simpl. exists (z :: r). repeat split; [simpl; lia|].
    intros [|i] a b Ha Hb; simpl in *.
    + inversion Ha; inversion Hb; subst. eauto.
    + eauto.
Qed.
