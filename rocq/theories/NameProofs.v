From Coq Require Import Ascii Lia Sorted.
From Verif Require Import Base NameModel NameSpec.

Lemma ascii_nat_inj c d : nat_of_ascii c = nat_of_ascii d -> c = d.
Proof. intros H. now rewrite <- (ascii_nat_embedding c), <- (ascii_nat_embedding d), H. Qed.

Lemma ltb_spec a : forall b, ltb a b = true <-> precedes a b.
Proof.
  induction a as [|c a IH]; intros [|d b]; cbn [ltb].
  - split; [easy|intros H; inversion H].
  - split; [constructor|easy].
  - split; [easy|intros H; inversion H].
  - destruct (Nat.ltb_spec (nat_of_ascii c) (nat_of_ascii d)).
    + split; [now intros _; apply smaller|easy].
    + destruct (Nat.ltb_spec (nat_of_ascii d) (nat_of_ascii c)).
      * split; [easy|]. intros H1. inversion H1; subst; lia.
      * assert (c = d) as -> by (apply ascii_nat_inj; lia). rewrite IH.
        split; [apply later|]. intros H1. inversion H1; subst; [lia|easy].
Qed.
Lemma ltb_irrefl a : ltb a a = false.
Proof. induction a as [|c a IH]; cbn [ltb]; [easy|]. now rewrite !Nat.ltb_irrefl. Qed.
Lemma ltb_total a : forall b, ltb a b = false -> ltb b a = false -> a = b.
Proof.
  induction a as [|c a IH]; intros [|d b]; cbn [ltb]; try easy.
  destruct (Nat.ltb_spec (nat_of_ascii c) (nat_of_ascii d)); [easy|].
  destruct (Nat.ltb_spec (nat_of_ascii d) (nat_of_ascii c)); [easy|].
  intros H1 H2. f_equal; [apply ascii_nat_inj; lia|now apply IH].
Qed.
Lemma precedes_trans a b c : precedes a b -> precedes b c -> precedes a c.
Proof.
  intros H. revert c. induction H as [x b|x y a b L|x a b H IH]; intros c Hc; inversion Hc; subst.
  - constructor.
  - constructor.
  - apply smaller. lia.
  - now apply smaller.
  - now apply smaller.
  - apply later. now apply IH.
Qed.
Lemma precedes_irrefl a : ~ precedes a a.
Proof. rewrite <- ltb_spec, ltb_irrefl. easy. Qed.

Lemma find_eq {A} k (v : A) k' r : find k ((k', v) :: r) = if list_eq_dec ascii_dec k k' then Some v else find k r.
Proof.
  cbn. destruct (list_eq_dec ascii_dec k k') as [->|N]; [now rewrite !ltb_irrefl|].
  destruct (ltb k k') eqn:E1; [easy|]. destruct (ltb k' k) eqn:E2; [easy|]. destruct N. now apply ltb_total.
Qed.
Lemma find_insert {A} k (v : A) n m : Sorted precedes (map fst m) ->
  find n (insert k v m) = match find n m with Some w => Some w | None => if list_eq_dec ascii_dec n k then Some v else None end.
Proof.
  induction m as [|(k', v') m IH]; intros H.
  - cbn [insert]. now rewrite find_eq.
  - cbn [insert]. destruct (ltb k k') eqn:E1.
    + rewrite find_eq. destruct (list_eq_dec ascii_dec n k) as [->|N].
      * assert (F : find k ((k', v') :: m) = None); [|now rewrite F].
        apply ltb_spec in E1. apply Sorted_StronglySorted in H; [|intros a b c; apply precedes_trans].
        clear IH. cbn [map fst] in H. inversion H as [|? ? _ B]; subst. clear H.
        rewrite find_eq. destruct (list_eq_dec ascii_dec k k') as [->|_]; [now apply precedes_irrefl in E1|].
        induction m as [|(k2, v2) m IHm]; [easy|]. rewrite find_eq. inversion B; subst.
        destruct (list_eq_dec ascii_dec k k2) as [->|_]; [|now apply IHm].
        destruct (precedes_irrefl k'). now apply precedes_trans with k2.
      * now destruct (find n ((k', v') :: m)).
    + destruct (ltb k' k) eqn:E2.
      * rewrite !find_eq. destruct (list_eq_dec ascii_dec n k') as [->|N]; [easy|]. apply IH.
        now inversion H.
      * assert (k = k') as -> by now apply ltb_total. rewrite find_eq.
        destruct (list_eq_dec ascii_dec n k') as [->|N]; [easy|]. now destruct (find n m).
Qed.
Lemma insert_head {A} k (v : A) m p : precedes p k -> HdRel precedes p (map fst m) -> HdRel precedes p (map fst (insert k v m)).
Proof.
  intros Hp H. destruct m as [|(k', v') m]; cbn; [now constructor|].
  inversion H; subst. destruct (ltb k k'); [now constructor|]. destruct (ltb k' k); now constructor.
Qed.
Lemma insert_sorted {A} k (v : A) m : Sorted precedes (map fst m) -> Sorted precedes (map fst (insert k v m)).
Proof.
  induction m as [|(k', v') m IH]; intros H; cbn [insert].
  - cbn. now constructor.
  - destruct (ltb k k') eqn:E1; [|destruct (ltb k' k) eqn:E2]; [| |easy].
    + cbn [map fst]. constructor; [easy|]. constructor. now apply ltb_spec.
    + cbn [map fst] in *. inversion H; subst. constructor; [now apply IH|].
      apply insert_head; [now apply ltb_spec|easy].
Qed.
Lemma insert_keys {A} k (v : A) m n : In n (map fst (insert k v m)) <-> n = k \/ In n (map fst m).
Proof.
  induction m as [|(k', v') m IH]; cbn [insert]; [cbn; intuition|].
  destruct (ltb k k') eqn:E1; [|destruct (ltb k' k) eqn:E2].
  - cbn. intuition.
  - cbn [map fst In]. rewrite IH. intuition.
  - assert (k = k') as -> by now apply ltb_total. cbn. intuition.
Qed.

(** *** Tables after registrations *)
Section Histories.
  Context {A : Type}.
  Variable norm : word -> word.
  Definition after (h : list (word * A)) : creators A := fold_left (fun m e => insert (norm (fst e)) (snd e) m) h [].
  Definition same_norm (a b : word) : Prop := norm a = norm b.
  Lemma after_inv h : forall m : creators A, Sorted precedes (map fst m) ->
    let m' := fold_left (fun m e => insert (norm (fst e)) (snd e) m) h m in
    Sorted precedes (map fst m') /\
    (forall n, In n (map fst m') <-> In n (map fst m) \/ exists e, In e h /\ n = norm (fst e)) /\
    forall n, match find n m' with
      | Some v => find n m = Some v \/ (find n m = None /\ exists h1 k h2, h = h1 ++ (k, v) :: h2 /\ norm k = n /\ forall e, In e h1 -> norm (fst e) <> n)
      | None => find n m = None /\ forall e, In e h -> norm (fst e) <> n
      end.
  Proof.
    induction h as [|(k, v) h IH]; intros m Hm; cbn [fold_left fst snd].
    - split; [easy|]. split; [intros n; split; [now left|intros [H|(e & [] & _)]; easy]|].
      intros n. destruct (find n m); [now left|now split].
    - destruct (IH _ (insert_sorted (norm k) v m Hm)) as (S & K & F). cbv zeta. split; [easy|]. split.
      + intros n. rewrite K, insert_keys. split.
        * intros [[->|H]|(e & I & ->)]; [right; exists (k, v); split; [now left|easy]|now left|right; exists e; split; [now right|easy]].
        * intros [H|(e & [<-|I] & ->)]; [left; now right|left; now left|right; now exists e].
      + intros n. specialize (F n). rewrite find_insert in F by easy.
        destruct (find n _) as [w|].
        * destruct (find n m) as [u|].
          -- left. destruct F as [F|(F & _)]; [easy|easy].
          -- destruct (list_eq_dec ascii_dec n (norm k)) as [->|N].
             ++ destruct F as [F|(F & _)]; [|easy]. injection F as ->. right. split; [easy|]. exists [], k, h. split; [easy|]. split; [easy|]. intros e [].
             ++ destruct F as [F|(_ & h1 & q & h2 & -> & E & B)]; [easy|]. right. split; [easy|].
                exists ((k, v) :: h1), q, h2. split; [easy|]. split; [easy|]. intros e [<-|I]; [cbn; congruence|now apply B].
        * destruct (find n m) as [u|]; [now destruct F|]. destruct (list_eq_dec ascii_dec n (norm k)) as [->|N]; [now destruct F|].
          destruct F as (_ & B). split; [easy|]. intros e [<-|I]; [cbn; congruence|now apply B].
  Qed.
  Lemma after_spec h n : match find (norm n) (after h) with
      | Some v => stands_for same_norm h n v
      | None => unknown same_norm h n
      end.
  Proof.
    destruct (after_inv h [] (Sorted_nil _)) as (_ & _ & F). specialize (F (norm n)). fold (after h) in F.
    destruct (find (norm n) (after h)) as [v|]; [|now destruct F].
    destruct F as [F|(_ & h1 & k & h2 & E & K & B)]; [easy|]. now exists h1, k, h2.
  Qed.
  Lemma stands_for_unique same h n (v w : A) : stands_for same h n v -> stands_for same h n w -> v = w.
  Proof.
    intros (a & k & b & -> & K & B) (a' & k' & b' & E & K' & B').
    revert a' E B'. induction a as [|x a IH]; intros [|y a'] E B'; cbn in E.
    - now injection E.
    - injection E as <- _. destruct (B' (k, v)); [now left|easy].
    - injection E as -> _. destruct (B (k', w)); [now left|easy].
    - injection E as -> E. apply (IH (fun e I => B e (or_intror I)) a' E). intros e I. apply B'. now right.
  Qed.
End Histories.

(** *** Upper and lower case *)
Lemma lower_alike c d : lower_char c = lower_char d <-> alike c d.
Proof.
  unfold lower_char, alike.
  assert (Bc := nat_ascii_bounded c). assert (Bd := nat_ascii_bounded d).
  assert (U : forall x, nat_of_ascii x <= 90 -> nat_of_ascii (ascii_of_nat (nat_of_ascii x + 32)) = nat_of_ascii x + 32).
  { intros x Hx. apply nat_ascii_embedding. lia. }
  destruct ((65 <=? nat_of_ascii c)%nat && (nat_of_ascii c <=? 90)%nat) eqn:Ec;
  destruct ((65 <=? nat_of_ascii d)%nat && (nat_of_ascii d <=? 90)%nat) eqn:Ed;
  rewrite ?andb_true_iff, ?andb_false_iff, ?Nat.leb_le, ?Nat.leb_gt in *.
  - split.
    + intros H. left. apply ascii_nat_inj. apply (f_equal nat_of_ascii) in H. rewrite !U in H by lia. lia.
    + intros [->|(k & Hk & H)]; [easy|]. lia.
  - split.
    + intros H. right. exists (nat_of_ascii c - 65). apply (f_equal nat_of_ascii) in H. rewrite U in H by lia. lia.
    + intros [->|(k & Hk & H)]; [lia|]. apply ascii_nat_inj. rewrite U by lia. lia.
  - split.
    + intros H. right. exists (nat_of_ascii d - 65). apply (f_equal nat_of_ascii) in H. rewrite U in H by lia. lia.
    + intros [->|(k & Hk & H)]; [lia|]. apply ascii_nat_inj. rewrite U by lia. lia.
  - split; [now left|]. intros [->|(k & Hk & H)]; [easy|]. lia.
Qed.
Lemma to_lower_same a : forall b, to_lower a = to_lower b <-> same_letters a b.
Proof.
  induction a as [|c a IH]; intros [|d b]; cbn.
  - split; [constructor|easy].
  - split; [easy|intros H; inversion H].
  - split; [easy|intros H; inversion H].
  - split.
    + intros E. injection E as E1 E2. constructor; [now apply lower_alike|now apply IH].
    + intros H. inversion H; subst. f_equal; [now apply lower_alike|now apply IH].
Qed.

Lemma list_comma {A} (m : creators A) : comma_list (map fst m) (listImplementations m).
Proof.
  induction m as [|(k, v) m IH]; [constructor|]. cbn [listImplementations map fst].
  destruct m as [|e m]; [constructor|]. now apply more_words.
Qed.

(** *** Search paths *)
Lemma is_sep_spec c : is_sep c = true <-> separating c.
Proof. unfold is_sep, separating. now rewrite orb_true_iff, !Ascii.eqb_eq. Qed.
Lemma is_sep_false c : is_sep c = false <-> ~ separating c.
Proof. rewrite <- is_sep_spec. now destruct is_sep. Qed.

Lemma split_seps s : Forall separating s -> forall r, split (s ++ r) [] true = split r [] true.
Proof. induction 1 as [|c s Hc _ IH]; intros r; [easy|]. cbn. apply is_sep_spec in Hc. now rewrite Hc. Qed.
Lemma split_start s r b : Forall separating s -> filter nonempty (split (s ++ r) [] b) = filter nonempty (split r [] true).
Proof.
  intros H. assert (E : forall l, filter nonempty (split l [] false) = filter nonempty (split l [] true)).
  { intros [|c l]; [easy|]. cbn. now destruct (is_sep c). }
  destruct b; [|rewrite E]; now rewrite split_seps.
Qed.
Lemma split_word d : Forall (fun c => ~ separating c) d -> forall r cur b, d <> [] ->
  split (d ++ r) cur b = split r (rev d ++ cur) false.
Proof.
  induction 1 as [|c d Hc F IH]; intros r cur b N; [easy|]. cbn. apply is_sep_false in Hc. rewrite Hc.
  destruct d as [|e d]; [easy|]. rewrite IH by easy. cbn. now rewrite <- !app_assoc.
Qed.
Lemma split_directories ds t : directories ds t -> forall b, filter nonempty (split t [] b) = ds.
Proof.
  induction 1 as [s H|s d H (Nd & Fd)|s d c ds t H (Nd & Fd) Hc _ IH]; intros b.
  - rewrite <- (app_nil_r s), split_start by easy. easy.
  - rewrite split_start by easy. rewrite <- (app_nil_r d) at 1. rewrite split_word by easy.
    rewrite app_nil_r. cbn. rewrite rev_involutive. now destruct d.
  - rewrite split_start, split_word by easy. apply is_sep_spec in Hc. cbn. rewrite Hc.
    rewrite app_nil_r, rev_involutive. cbn. destruct d; [easy|]. cbn. f_equal. apply IH.
Qed.
Lemma directories_exist t : exists ds, directories ds t.
Proof.
  remember (length t) as n eqn:E. assert (L : length t <= n) by lia. clear E. revert t L.
  induction n as [|n IH]; intros t L.
  - destruct t; [|cbn in L; lia]. exists []. now constructor.
  - assert (Cut : forall (p : ascii -> bool) l, exists a b, l = a ++ b /\ Forall (fun c => p c = true) a /\
      match b with [] => True | c :: _ => p c = false end).
    { intros p l. induction l as [|c l (a & b & -> & F & B)]; [now exists [], []|].
      destruct (p c) eqn:Pc; [exists (c :: a), b; split; [easy|split; [now constructor|easy]]|now exists [], (c :: a ++ b)]. }
    destruct (Cut is_sep t) as (s & r & -> & Fs & Br).
    assert (Ss : Forall separating s) by (revert Fs; apply Forall_impl; intros c; apply is_sep_spec).
    destruct r as [|x r]; [exists []; rewrite app_nil_r; now constructor|].
    destruct (Cut (fun c => negb (is_sep c)) (x :: r)) as (d & q & E & Fd & Bq).
    assert (Dd : directory d).
    { split.
      - intros ->. cbn in E. subst q. now rewrite Br in Bq.
      - revert Fd. apply Forall_impl. intros c Hc. apply is_sep_false. now destruct (is_sep c). }
    rewrite E in *. destruct q as [|c q].
    + exists [d]. rewrite app_nil_r. now constructor.
    + destruct (IH q) as (ds & Hds); [rewrite !app_length in L; cbn in L; lia|].
      exists (d :: ds). constructor; try easy. apply is_sep_spec. now destruct (is_sep c).
Qed.
