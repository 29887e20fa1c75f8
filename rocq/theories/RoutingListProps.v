(** Property C27: FilterRoutingList and SparseGainRoutingList. *)
From Verif Require Import Base OrdSet IndexSequenceModel RoutingListModel.
From Coq Require Import String.
From Coq Require Import Sorted List.
Import ListNotations.
Local Open Scope res_scope.
Local Open Scope nat_scope.

(** *** Generic *)

(** [l] repeated to length [n] if it is a scalar *)
Definition spread {A} (n : nat) (l : list A) : list A := match l with [x] => repeat x n | _ => l end.

Lemma pick_spread {A} (l : list A) n i : i < n -> length (spread n l) = n ->
  exists x, pick l i = Ok x /\ nth_error (spread n l) i = Some x.
Proof.
  intros Hi L. unfold pick, elt. destruct l as [|x [|y l]].
  - simpl in L. lia.
  - simpl. exists x. split; [reflexivity|]. simpl in L. now apply nth_error_repeat.
  - simpl length in *. cbn [spread Nat.eqb] in *. destruct (nth_error (x :: y :: l) i) as [z|] eqn:E; [now exists z|].
    apply nth_error_None in E. simpl in E. lia.
Qed.
Lemma spread_length {A} (l : list A) n : length (spread n l) = n <-> length l = 1 \/ length l = n.
Proof.
  destruct l as [|x [|y l]]; simpl; [lia| |lia]. rewrite repeat_length. lia.
Qed.

Definition some_list {A} (r : res (list A)) : option (list A) := match r with Ok l => Some l | _ => None end.
Definition sequence (t : option text) : option (list Z) :=
  match t with Some t => some_list (index_sequence t) | None => None end.
Definition width {A B} (ins : list A) (outs : list B) : nat :=
  if length ins =? 1 then length outs else length ins.
Definition field_ok (t : option text) : Prop := forall s, t = Some s -> index_sequence s <> UB.

(** *** The loop over the entries of a JSON element, for both lists *)
Section Loop.
  Context {G E : Type} (mk : nat -> nat -> nat -> G -> E).
  Fixpoint zip4 (a b c : list Z) (g : list G) : list E :=
    match a, b, c, g with
    | a :: ra, b :: rb, c :: rc, g :: rg => mk (Z.to_nat a) (Z.to_nat b) (Z.to_nat c) g :: zip4 ra rb rc rg
    | _, _, _, _ => []
    end.
  Lemma zip4_length a b c g n : length a = n -> length b = n -> length c = n -> length g = n -> length (zip4 a b c g) = n.
  Proof.
    revert b c g n. induction a as [|x a IH]; intros [|y b] [|z c] [|w g] n; simpl; try lia.
    intros. subst n. f_equal. apply IH; lia.
  Qed.
  Lemma zip4_nth a b c g i x y z w : nth_error a i = Some x -> nth_error b i = Some y ->
    nth_error c i = Some z -> nth_error g i = Some w ->
    nth_error (zip4 a b c g) i = Some (mk (Z.to_nat x) (Z.to_nat y) (Z.to_nat z) w).
  Proof.
    revert b c g i. induction a as [|a0 a IH]; intros [|b0 b] [|c0 c] [|g0 g] [|i]; simpl; try discriminate.
    - intros [= ->] [= ->] [= ->] [= ->]. reflexivity.
    - apply IH.
  Qed.
  Context {M : Type} (add : list E -> E -> res (list E)) (put : M -> E -> M) (R : list E -> M -> Prop).
  Hypothesis add_ok : forall l m e, R l m -> exists l', add l e = Ok l' /\ R l' (put m e).
  Lemma entries_loop ins outs fs gs k :
    length (spread k ins) = k -> length (spread k outs) = k -> length (spread k fs) = k -> length (spread k gs) = k ->
    forall n l m, n <= k -> R l m ->
    exists l', fold_res (fun l i =>
      a <- pick ins i ;; c <- pick outs i ;; f <- pick fs i ;; g <- pick gs i ;;
      add l (mk (to_index a) (to_index c) (to_index f) g)) (seq (k - n) n) l = Ok l'
      /\ R l' (fold_left put (skipn (k - n) (zip4 (spread k ins) (spread k outs) (spread k fs) (spread k gs))) m).
  Proof.
    intros L1 L2 L3 L4. set (z := zip4 _ _ _ _).
    assert (Lz : length z = k) by (apply zip4_length; auto).
    induction n as [|n IH]; intros l m Hn Rl.
    - exists l. split; [reflexivity|]. rewrite Nat.sub_0_r, <- Lz, skipn_all. exact Rl.
    - cbn [seq fold_res].
      destruct (pick_spread ins k (k - S n) ltac:(lia) L1) as (x1 & P1 & N1).
      destruct (pick_spread outs k (k - S n) ltac:(lia) L2) as (x2 & P2 & N2).
      destruct (pick_spread fs k (k - S n) ltac:(lia) L3) as (x3 & P3 & N3).
      destruct (pick_spread gs k (k - S n) ltac:(lia) L4) as (x4 & P4 & N4).
      rewrite P1, P2, P3, P4. cbn [bind].
      assert (Nz := zip4_nth _ _ _ _ _ _ _ _ _ N1 N2 N3 N4). fold z in Nz.
      destruct (add_ok l m (mk (to_index x1) (to_index x2) (to_index x3) x4) Rl) as (l1 & E1 & R1).
      rewrite E1. cbn [bind]. replace (S (k - S n)) with (k - n) by lia.
      destruct (IH l1 _ ltac:(lia) R1) as (l' & E' & R'). exists l'. split; [exact E'|].
      assert (Sk : skipn (k - S n) z = mk (Z.to_nat x1) (Z.to_nat x2) (Z.to_nat x3) x4 :: skipn (k - n) z).
      { assert (H : forall (zz : list E) j e, nth_error zz j = Some e -> skipn j zz = e :: skipn (S j) zz).
        { clear. induction zz as [|y zz IH]; intros [|j] e; simpl; try discriminate; [now intros [= ->]|apply IH]. }
        rewrite (H _ _ _ Nz). f_equal. f_equal. lia. }
      rewrite Sk. exact R'.
  Qed.
End Loop.
Lemma fold_res_ext {S X} (f g : S -> X -> res S) l : (forall s x, In x l -> f s x = g s x) ->
  forall s, fold_res f l s = fold_res g l s.
Proof.
  intros H. induction l as [|x l IH]; intros s; [reflexivity|]. simpl. rewrite H by now left.
  destruct (g s x); cbn [bind]; auto. apply IH. intros s' y Hy. apply H. now right.
Qed.

(** ** FilterRoutingList *)
Section F.
  Context {G : Type} (gain_one : G) (invalid : nat) (float_seq : text -> res (list G)) (text_one : text).
  Local Notation frouting := (frouting G).
  Local Notation flist := (@flist G).

  Definition f_key (e : frouting) : nat * nat := (f_in e, f_out e).
  Definition fm := nat * nat -> option frouting.
  Definition frepr : flist -> fm -> Prop := repr f_key pair_lt.

  Inductive fop :=
  | FAdd (e : frouting)
  | FRemoveEntry (e : frouting)
  | FRemove (i o : nat)
  | FGet (i o : nat)
  | FAssign (es : list frouting)            (* list = FilterRoutingList{ ... } *)
  | FParse (doc : res (list fnode)).
  Inductive fevent := Accepted | Rejected | Undefined | Removed (b : bool) | Found (e : option frouting).
  Definition outcome (r : res unit) : fevent :=
    match r with Ok _ => Accepted | Throw _ => Rejected | UB => Undefined end.

  Definition f_step (l : flist) (op : fop) : flist * fevent :=
    match op with
    | FAdd e => match f_add l e with
                | Ok l' => (l', Accepted) | Throw _ => (l, Rejected) | UB => (l, Undefined) end
    | FRemoveEntry e => let '(l', b) := f_remove_entry l e in (l', Removed b)
    | FRemove i o => let '(l', b) := f_remove gain_one invalid l i o in (l', Removed b)
    | FGet i o => (l, Found (f_get gain_one invalid l i o))
    | FAssign es => match f_construct es with
                    | Ok l' => (l', Accepted) | Throw _ => (l, Rejected) | UB => (l, Undefined) end
    | FParse doc => let '(r, l') := f_parse float_seq text_one l doc in (l', outcome r)
    end.

  (** *** Specification: a finite map from (input, output) *)
  Definition gain_sequence (t : option text) : option (list G) :=
    some_list (float_seq (match t with Some t => t | None => text_one end)).
  (** The entries a JSON element describes: scalars are repeated to the common number of
      entries; None if the lengths do not match. *)
  Definition node_entries (n : fnode) : option (list frouting) :=
    match sequence (n_input n), sequence (n_output n), sequence (n_filter n), gain_sequence (n_gain n) with
    | Some ins, Some outs, Some fs, Some gs =>
        let k := width ins outs in
        if (length (spread k ins) =? k) && (length (spread k outs) =? k)
           && (length (spread k fs) =? k) && (length (spread k gs) =? k)
        then Some (zip4 (@MkF G) (spread k ins) (spread k outs) (spread k fs) (spread k gs)) else None
    | _, _, _, _ => None
    end.
  Fixpoint doc_entries (ns : list fnode) : option (list frouting) :=
    match ns with
    | [] => Some []
    | n :: r => match node_entries n, doc_entries r with Some a, Some b => Some (a ++ b) | _, _ => None end
    end.
  Definition fput (m : fm) (e : frouting) : fm := mset pair_eqb m (f_key e) (Some e).
  Definition fputs (es : list frouting) (m : fm) : fm := fold_left fput es m.
  Definition fdistinct (es : list frouting) : Prop := NoDup (map f_key es).
  Definition distinctb (es : list frouting) : bool :=
    (fix go es := match es with
                  | [] => true
                  | e :: r => negb (existsb (fun e' => pair_eqb (f_key e) (f_key e')) r) && go r end) es.

  Definition fspec_step (m : fm) (op : fop) : fm * fevent :=
    match op with
    | FAdd e => (fput m e, Accepted)
    | FRemoveEntry e => (mset pair_eqb m (f_key e) None, Removed (match m (f_key e) with Some _ => true | None => false end))
    | FRemove i o => (mset pair_eqb m (i, o) None, Removed (match m (i, o) with Some _ => true | None => false end))
    | FGet i o => (m, Found (m (i, o)))
    | FAssign es => if distinctb es then (fputs es mempty, Accepted) else (m, Rejected)
    | FParse (Ok ns) => match doc_entries ns with
                        | Some es => (fputs es mempty, Accepted)
                        | None => (m, Rejected)
                        end
    | FParse _ => (m, Rejected)
    end.

  (** The parsed texts are within the range of the sequence parsers (C13), and the number
      of filter indices is not in conflict with the other fields, see
      C27_filter_count_refuted. *)
  Definition node_ok (n : fnode) : Prop :=
    field_ok (n_input n) /\ field_ok (n_output n) /\ field_ok (n_filter n)
    /\ float_seq (match n_gain n with Some t => t | None => text_one end) <> UB
    /\ forall ins outs fs, sequence (n_input n) = Some ins -> sequence (n_output n) = Some outs ->
         sequence (n_filter n) = Some fs ->
         length fs = 1 \/ length fs = width ins outs \/ width ins outs = 1.
  Definition fop_ok (op : fop) : Prop :=
    match op with FParse doc => doc <> UB /\ forall ns, doc = Ok ns -> Forall node_ok ns | _ => True end.

  (** *** Proof *)
  Lemma f_less_spec a b : f_less a b = true <-> pair_lt (f_key a) (f_key b).
  Proof.
    unfold f_less, pair_lt, f_key; simpl. destruct (Nat.ltb_spec (f_in a) (f_in b)); [split; auto|].
    destruct (Nat.ltb_spec (f_in b) (f_in a)); [split; [discriminate|lia]|].
    rewrite Nat.ltb_lt. lia.
  Qed.

  Lemma f_add_ok l m e : frepr l m -> exists l', f_add l e = Ok l' /\ frepr l' (fput m e).
  Proof.
    intros R. destruct (replace_repr f_less f_key pair_eqb pair_lt pair_eqb_spec f_less_spec pl_irr pl_trans pl_total l m e R)
      as (l' & E & R'). exists l'. unfold f_add. now rewrite E.
  Qed.
  Lemma f_remove_ok l m e : frepr l m ->
    exists l', f_remove_entry l e = (l', match m (f_key e) with Some _ => true | None => false end)
      /\ frepr l' (mset pair_eqb m (f_key e) None).
  Proof.
    intros R. unfold f_remove_entry.
    rewrite (find_repr f_less f_key pair_eqb pair_lt pair_eqb_spec f_less_spec pl_irr pl_total l m e R).
    destruct (m (f_key e)) eqn:E.
    - eexists. split; [reflexivity|]. now apply (erase_repr f_less f_key pair_eqb pair_lt pair_eqb_spec f_less_spec pl_irr pl_total).
    - exists l. split; [reflexivity|]. apply (repr_ext f_key pair_lt l m); [|exact R].
      intros k. unfold mset. destruct (pair_eqb_spec k (f_key e)); congruence.
  Qed.

  Lemma f_construct_ok es : forall l m, frepr l m ->
    (forall e, In e es -> m (f_key e) = None) ->
    if distinctb es then exists l', fold_res f_insert_unique es l = Ok l' /\ frepr l' (fputs es m)
    else fold_res f_insert_unique es l = Throw InvalidArgument.
  Proof.
    induction es as [|e es IH]; intros l m R N.
    - simpl. exists l. auto.
    - cbn [fold_res]. unfold f_insert_unique at 1 3.
      destruct (insert_new f_less f_key pair_eqb pair_lt pair_eqb_spec f_less_spec pl_trans pl_total l m e R
                  (N e (or_introl eq_refl))) as (l1 & E1 & R1). rewrite E1. cbn [bind].
      change (distinctb (e :: es)) with (negb (existsb (fun e' => pair_eqb (f_key e) (f_key e')) es) && distinctb es).
      destruct (existsb (fun e' => pair_eqb (f_key e) (f_key e')) es) eqn:X; cbn [negb andb].
      + (* a duplicate of e comes later *)
        apply existsb_exists in X as (e' & Hi & X). destruct (pair_eqb_spec (f_key e) (f_key e')) as [Q|]; [|discriminate].
        assert (Dup : forall es l m y, frepr l m -> In e' es -> m (f_key e') = Some y -> fold_res f_insert_unique es l = Throw InvalidArgument).
        { clear. induction es as [|x es IH]; intros l m y R Hi Hm; [destruct Hi|]. cbn [fold_res].
          destruct (m (f_key x)) as [z|] eqn:Ex.
          - unfold f_insert_unique at 1.
            rewrite (insert_old f_less f_key pair_lt f_less_spec pl_irr pl_trans l m x z R Ex). reflexivity.
          - destruct Hi as [->|Hi]; [congruence|].
            destruct (insert_new f_less f_key pair_eqb pair_lt pair_eqb_spec f_less_spec pl_trans pl_total l m x R Ex)
              as (l1 & E1 & R1). unfold f_insert_unique at 1. rewrite E1. cbn [bind].
            apply (IH l1 _ y R1 Hi). unfold mset. destruct (pair_eqb_spec (f_key e') (f_key x)); [congruence|exact Hm]. }
        apply (Dup es l1 _ e R1 Hi). unfold mset. rewrite <- Q. destruct (pair_eqb_spec (f_key e) (f_key e)); congruence.
      + apply (IH l1 (fput m e) R1). intros x Hx. unfold fput, mset.
        destruct (pair_eqb_spec (f_key x) (f_key e)) as [Q|]; [|apply N; now right].
        exfalso. assert (existsb (fun e' => pair_eqb (f_key e) (f_key e')) es = true); [|congruence].
        apply existsb_exists. exists x. split; [exact Hx|]. destruct (pair_eqb_spec (f_key e) (f_key x)); congruence.
  Qed.

  Lemma f_node_ok l m n : node_ok n -> frepr l m ->
    match node_entries n with
    | Some es => exists l', f_node float_seq text_one l n = Ok l' /\ frepr l' (fputs es m)
    | None => exists e, f_node float_seq text_one l n = Throw e
    end.
  Proof.
    intros (O1 & O2 & O3 & O4 & O5) R. unfold f_node, node_entries.
    destruct n as [ti to tf tg]; cbn [n_input n_output n_filter n_gain] in *.
    unfold sequence, gain_sequence in *.
    destruct ti as [ti|]; cbn [field bind]; [|eexists; reflexivity]. specialize (O1 ti eq_refl).
    destruct to as [to|]; cbn [field bind]; [specialize (O2 to eq_refl)|destruct (some_list _); eexists; reflexivity].
    destruct tf as [tf|]; cbn [field bind]; [specialize (O3 tf eq_refl)|
      destruct (some_list (index_sequence ti)); [destruct (some_list (index_sequence to))|]; eexists; reflexivity].
    destruct (index_sequence ti) as [ins|e|]; cbn [bind some_list]; [|eexists; reflexivity|congruence].
    destruct (index_sequence to) as [outs|e|]; cbn [bind some_list]; [|eexists; reflexivity|congruence].
    destruct (index_sequence tf) as [fs|e|]; cbn [bind some_list]; [|eexists; reflexivity|congruence].
    destruct (float_seq _) as [gs|e|]; cbn [bind some_list]; [|eexists; reflexivity|congruence].
    specialize (O5 ins outs fs eq_refl eq_refl eq_refl).
    set (k := width ins outs) in *.
    assert (Fe : f_entries (length ins) (length outs)
      = if (length (spread k ins) =? k) && (length (spread k outs) =? k) then Ok k else Throw InvalidArgument).
    { unfold f_entries. destruct (Nat.eqb_spec (length (spread k ins)) k) as [A|A]; rewrite spread_length in A;
        destruct (Nat.eqb_spec (length (spread k outs)) k) as [B|B]; rewrite spread_length in B; cbn [andb];
        unfold k, width in *; destruct (Nat.eqb_spec (length outs) (length ins)); destruct (Nat.eqb_spec (length ins) 1);
        destruct (Nat.eqb_spec (length outs) 1); try lia; f_equal; lia. }
    rewrite Fe. destruct (Nat.eqb_spec (length (spread k ins)) k) as [A|A]; cbn [andb bind]; [|eexists; reflexivity].
    destruct (Nat.eqb_spec (length (spread k outs)) k) as [B|B]; cbn [andb bind]; [|eexists; reflexivity].
    destruct (Nat.eqb_spec (length (spread k fs)) k) as [C|C]; cbn [andb].
    - replace (negb (length fs =? k) && (k =? 1) && negb (length fs =? 1)) with false.
      2:{ rewrite spread_length in C. destruct (Nat.eqb_spec (length fs) k); [reflexivity|].
          destruct (Nat.eqb_spec (length fs) 1); [now rewrite andb_false_r|lia]. }
      cbn [bind]. destruct (Nat.eqb_spec (length (spread k gs)) k) as [D|D].
      + replace (negb (length gs =? 1) && negb (length gs =? k)) with false.
        2:{ rewrite spread_length in D. destruct (Nat.eqb_spec (length gs) 1); [reflexivity|].
            destruct (Nat.eqb_spec (length gs) k); [reflexivity|lia]. }
        cbn [bind]. destruct (entries_loop (@MkF G) f_add fput frepr f_add_ok ins outs fs gs k A B C D k l m ltac:(lia) R) as (l' & E & R').
        rewrite Nat.sub_diag in E, R'. exists l'. auto.
      + replace (negb (length gs =? 1) && negb (length gs =? k)) with true; [eexists; reflexivity|].
        rewrite spread_length in D. destruct (Nat.eqb_spec (length gs) 1), (Nat.eqb_spec (length gs) k); auto; lia.
    - rewrite spread_length in C. destruct O5 as [|[|K1]]; try lia.
      replace (negb (length fs =? k) && (k =? 1) && negb (length fs =? 1)) with true; [eexists; reflexivity|].
      destruct (Nat.eqb_spec (length fs) k), (Nat.eqb_spec k 1), (Nat.eqb_spec (length fs) 1); auto; lia.
  Qed.

  Lemma f_nodes_ok ns : Forall node_ok ns -> forall l m, frepr l m ->
    match doc_entries ns with
    | Some es => exists l', fold_res (f_node float_seq text_one) ns l = Ok l' /\ frepr l' (fputs es m)
    | None => exists e, fold_res (f_node float_seq text_one) ns l = Throw e
    end.
  Proof.
    induction 1 as [|n ns O _ IH]; intros l m R; [simpl; exists l; auto|].
    cbn [doc_entries fold_res]. assert (N := f_node_ok l m n O R). destruct (node_entries n) as [es|].
    - destruct N as (l1 & E1 & R1). rewrite E1. cbn [bind]. specialize (IH l1 _ R1).
      destruct (doc_entries ns) as [es'|].
      + destruct IH as (l' & E & R'). exists l'. split; [exact E|]. unfold fputs in *. now rewrite fold_left_app.
      + exact IH.
    - destruct N as (e & E). rewrite E. exists e. reflexivity.
  Qed.

  Lemma f_step_ok l m op : fop_ok op -> frepr l m ->
    frepr (fst (f_step l op)) (fst (fspec_step m op)) /\ snd (f_step l op) = snd (fspec_step m op).
  Proof.
    intros O R. destruct op as [e|e|i o|i o|es|doc]; cbn [f_step fspec_step].
    - destruct (f_add_ok l m e R) as (l' & E & R'). rewrite E. auto.
    - destruct (f_remove_ok l m e R) as (l' & E & R'). rewrite E. auto.
    - destruct (f_remove_ok l m (f_probe gain_one invalid i o) R) as (l' & E & R'). unfold f_remove. rewrite E. auto.
    - split; [exact R|]. cbn [snd]. f_equal. unfold f_get.
      apply (find_repr f_less f_key pair_eqb pair_lt pair_eqb_spec f_less_spec pl_irr pl_total l m (f_probe gain_one invalid i o) R).
    - assert (C := f_construct_ok es [] mempty (repr_empty f_key pair_lt) (fun _ _ => eq_refl)).
      unfold f_construct. destruct (distinctb es).
      + destruct C as (l' & E & R'). rewrite E. auto.
      + rewrite C. auto.
    - unfold f_parse, f_from_json. destruct O as [O1 O2]. destruct doc as [ns|e|]; [|auto|congruence].
      cbn [bind]. assert (D := f_nodes_ok ns (O2 ns eq_refl) [] mempty (repr_empty f_key pair_lt)).
      destruct (doc_entries ns) as [es|].
      + destruct D as (l' & E & R'). rewrite E. auto.
      + destruct D as (e & E). rewrite E. auto.
  Qed.
End F.
Arguments fop G : clear implicits.

(** Every history of operations on a FilterRoutingList behaves like a finite map keyed by
    (input, output): adding replaces, removal addresses exactly this key, an element of a
    parsed document denotes the entries with scalar fields repeated; a rejected parse or
    construction leaves the list unchanged.  The list is the sorted enumeration of the
    map's values. *)
Theorem C27_filter_routing_map :
  forall {G : Type} (gain_one : G) invalid float_seq text_one (ops : list (fop G)),
  Forall (fop_ok float_seq text_one) ops ->
  let step := f_step gain_one invalid float_seq text_one in
  let l := final step [] ops in
  let m := final (fspec_step float_seq text_one) mempty ops in
  outputs step [] ops = outputs (fspec_step float_seq text_one) mempty ops
  /\ StronglySorted (fun a b => pair_lt (f_key a) (f_key b)) l
  /\ (forall k e, m k = Some e <-> In e l /\ f_key e = k)
  /\ NoDup (map f_key l).
Proof.
  intros G gain_one invalid float_seq text_one ops O step l m.
  assert (H : forall ops l0 m0, Forall (fop_ok float_seq text_one) ops -> frepr l0 m0 ->
    outputs step l0 ops = outputs (fspec_step float_seq text_one) m0 ops
    /\ frepr (final step l0 ops) (final (fspec_step float_seq text_one) m0 ops)).
  { clear. induction ops as [|op ops IH]; intros l0 m0 O R; [auto|].
    assert (O1 := Forall_inv O). assert (O2 := Forall_inv_tail O). rewrite !outputs_cons, !final_cons.
    destruct (f_step_ok gain_one invalid float_seq text_one l0 m0 op O1 R) as [R' E]. fold step in R', E. rewrite E.
    destruct (IH _ _ O2 R') as [A B]. now rewrite A. }
  destruct (H ops [] mempty O (repr_empty f_key pair_lt)) as [A [S M]]. split; [exact A|]. split; [exact S|].
  split; [exact M|]. apply (repr_nodup f_key pair_lt pl_irr l m). now split.
Qed.
Print Assumptions C27_filter_routing_map.

(** Text for the examples *)
Definition txt (s : string) : text := list_ascii_of_string s.
(** a stand-in for FloatSequence: "1.0" and other texts *)
Definition floats (t : text) : res (list nat) :=
  match t with [] => Throw InvalidArgument | _ => Ok [List.length t] end.

Definition ops27 : list (fop nat) :=
  [ FAdd (MkF 1 0 7 5); FAdd (MkF 0 0 2 5); FAdd (MkF 1 0 3 9); FGet 1 0; FRemove 0 0; FRemove 0 0;
    FParse (Ok [MkFNode (Some (txt "0:1")) (Some (txt "4")) (Some (txt "5,6")) None]);
    FParse (Ok [MkFNode (Some (txt "0:1")) (Some (txt "4:6")) (Some (txt "5")) None]);
    FGet 1 4; FGet 1 0 ].
Example C27_example :
  Forall (fop_ok floats (txt "1.0")) ops27
  /\ outputs (f_step 1 0 floats (txt "1.0")) [] ops27
     = [ Accepted; Accepted; Accepted; Found (Some (MkF 1 0 3 9)); Removed true; Removed false;
         Accepted; Rejected; Found (Some (MkF 1 4 6 3)); Found None ].
Proof.
  split; [|reflexivity].
  assert (P : forall n, node_ok floats (txt "1.0") n -> fop_ok floats (txt "1.0") (FParse (Ok [n]))).
  { intros n H. split; [discriminate|]. intros ns [= <-]. now constructor. }
  repeat (apply Forall_cons; [try exact I; apply P; unfold node_ok, field_ok; cbn [n_input n_output n_filter n_gain];
    repeat split; try (intros s [= <-]); try (now vm_compute);
    intros ins outs fs [= <-] [= <-] [= <-]; cbn; auto|]).
  apply Forall_nil.
Qed.

(** fromJson() compares the number of filter indices with the number of entries only if
    there is a single entry: with two inputs and three filters the third one is silently
    dropped, with three inputs and two filters the list of filters is read out of
    bounds. *)
Theorem C27_filter_count_refuted :
  (exists doc l, f_from_json floats (txt "1.0") doc = Ok l
     /\ doc = Ok [MkFNode (Some (txt "0,1")) (Some (txt "0,1")) (Some (txt "5,6,7")) None]
     /\ List.length l = 2)
  /\ f_from_json floats (txt "1.0")
       (Ok [MkFNode (Some (txt "0:2")) (Some (txt "0:2")) (Some (txt "5,6")) None]) = UB.
Proof.
  split; [|vm_compute; reflexivity]. eexists. eexists. split; [|split; [reflexivity|]]; [vm_compute; reflexivity|reflexivity].
Qed.
Print Assumptions C27_filter_count_refuted.

(** ** SparseGainRoutingList: keyed by the entry index *)
Section S.
  Context {G : Type} (gain_one : G) (invalid : nat) (float_seq : text -> res (list G)).
  Local Notation srouting := (srouting G).
  Local Notation s_entry := (@s_entry G).
  Inductive sop :=
  | SAdd (e : srouting) | SRemoveEntry (e : srouting) | SGet (i : nat)
  | SRemove (i o : nat)
  | SAssign (es : list srouting)
  | SParse (doc : res (list snode)).
  Inductive sevent := SAccepted | SRejected | SUndefined | SRemoved (b : bool) | SFound (e : option srouting).
  Definition s_step (l : list srouting) (op : sop) : list srouting * sevent :=
    match op with
    | SAdd e => match s_add l e with Ok l' => (l', SAccepted) | _ => (l, SRejected) end
    | SRemoveEntry e => let '(l', b) := s_remove_entry l e in (l', SRemoved b)
    | SGet i => (l, SFound (s_get gain_one invalid l i))
    | SRemove i o => let '(l', b) := s_remove gain_one invalid l i o in (l', SRemoved b)
    | SAssign es => match s_construct es with
                    | Ok l' => (l', SAccepted) | Throw _ => (l, SRejected) | UB => (l, SUndefined) end
    | SParse doc => let '(r, l') := s_parse float_seq l doc in
                    (l', match r with Ok _ => SAccepted | Throw _ => SRejected | UB => SUndefined end)
    end.
  Definition sm := nat -> option srouting.
  (** the entries of a JSON element: one per entry index, scalars of the other fields are
      repeated *)
  Definition s_node_entries (n : snode) : option (list srouting) :=
    match sequence (n_index n), sequence (n_row n), sequence (n_column n), n_sgain n with
    | Some es, Some rs, Some cs, Some t =>
        match some_list (float_seq t) with
        | Some gs =>
            let k := length es in
            if (length (spread k rs) =? k) && (length (spread k cs) =? k) && (length (spread k gs) =? k)
            then Some (zip4 (@MkS G) es (spread k rs) (spread k cs) (spread k gs)) else None
        | None => None
        end
    | _, _, _, _ => None
    end.
  Fixpoint s_doc_entries (ns : list snode) : option (list srouting) :=
    match ns with
    | [] => Some []
    | n :: r => match s_node_entries n, s_doc_entries r with Some a, Some b => Some (a ++ b) | _, _ => None end
    end.
  Definition sput (m : sm) (e : srouting) : sm := mset Nat.eqb m (s_entry e) (Some e).
  Definition s_distinctb (es : list srouting) : bool :=
    (fix go es := match es with
                  | [] => true
                  | e :: r => negb (existsb (fun e' => s_entry e =? s_entry e') r) && go r end) es.
  Definition s_node_ok (n : snode) : Prop :=
    field_ok (n_index n) /\ field_ok (n_row n) /\ field_ok (n_column n)
    /\ (forall t, n_sgain n = Some t -> float_seq t <> UB)
    /\ forall es rs cs, sequence (n_index n) = Some es -> sequence (n_row n) = Some rs ->
         sequence (n_column n) = Some cs ->
         (length cs = 1 \/ length cs = length es \/ length es = 1) /\ (length es = 1 -> length rs = 1).
  Definition sop_ok (op : sop) : Prop :=
    match op with SParse doc => doc <> UB /\ forall ns, doc = Ok ns -> Forall s_node_ok ns | _ => True end.
  Definition s_spec_step (m : sm) (op : sop) : sm * sevent :=
    match op with
    | SAdd e => (mset Nat.eqb m (s_entry e) (Some e), SAccepted)
    | SRemoveEntry e => (mset Nat.eqb m (s_entry e) None, SRemoved (match m (s_entry e) with Some _ => true | None => false end))
    | SGet i => (m, SFound (m i))
    | SRemove i _ => (mset Nat.eqb m i None, SRemoved (match m i with Some _ => true | None => false end))
    | SAssign es => if s_distinctb es then (fold_left sput es mempty, SAccepted) else (m, SRejected)
    | SParse (Ok ns) => match s_doc_entries ns with
                        | Some es => (fold_left sput es mempty, SAccepted)
                        | None => (m, SRejected)
                        end
    | SParse _ => (m, SRejected)
    end.

  Lemma s_less_spec (a b : srouting) : s_less a b = true <-> s_entry a < s_entry b.
  Proof. apply Nat.ltb_lt. Qed.
  Lemma s_total a b : a < b \/ a = b \/ b < a. Proof. lia. Qed.
  Lemma s_remove_ok l m e : repr s_entry lt l m ->
    exists l', s_remove_entry l e = (l', match m (s_entry e) with Some _ => true | None => false end)
      /\ repr s_entry lt l' (mset Nat.eqb m (s_entry e) None).
  Proof.
    intros R. unfold s_remove_entry.
    rewrite (find_repr s_less s_entry Nat.eqb lt Nat.eqb_spec s_less_spec Nat.lt_irrefl s_total l m e R).
    destruct (m (s_entry e)) eqn:E.
    - eexists. split; [reflexivity|]. now apply (erase_repr s_less s_entry Nat.eqb lt Nat.eqb_spec s_less_spec Nat.lt_irrefl s_total).
    - exists l. split; [reflexivity|]. apply (repr_ext s_entry lt l m); [|exact R].
      intros k. unfold mset. destruct (Nat.eqb_spec k (s_entry e)); congruence.
  Qed.
  Lemma s_add_ok l m e : repr s_entry lt l m -> exists l', s_add l e = Ok l' /\ repr s_entry lt l' (sput m e).
  Proof.
    intros R. destruct (replace_repr s_less s_entry Nat.eqb lt Nat.eqb_spec s_less_spec Nat.lt_irrefl Nat.lt_trans s_total l m e R)
      as (l' & E & R'). unfold s_add. rewrite E. eauto.
  Qed.
  Lemma s_construct_ok es : forall l m, repr s_entry lt l m ->
    (forall e, In e es -> m (s_entry e) = None) ->
    if s_distinctb es then exists l', fold_res s_insert_unique es l = Ok l' /\ repr s_entry lt l' (fold_left sput es m)
    else fold_res s_insert_unique es l = Throw InvalidArgument.
  Proof.
    induction es as [|e es IH]; intros l m R N.
    - simpl. exists l. auto.
    - cbn [fold_res]. unfold s_insert_unique at 1 3.
      destruct (insert_new s_less s_entry Nat.eqb lt Nat.eqb_spec s_less_spec Nat.lt_trans s_total l m e R
                  (N e (or_introl eq_refl))) as (l1 & E1 & R1). rewrite E1. cbn [bind].
      change (s_distinctb (e :: es)) with (negb (existsb (fun e' => s_entry e =? s_entry e') es) && s_distinctb es).
      destruct (existsb (fun e' => s_entry e =? s_entry e') es) eqn:X; cbn [negb andb].
      + apply existsb_exists in X as (e' & Hi & X). apply Nat.eqb_eq in X.
        assert (Dup : forall es l m y, repr s_entry lt l m -> In e' es -> m (s_entry e') = Some y -> fold_res s_insert_unique es l = Throw InvalidArgument).
        { clear. induction es as [|x es IH]; intros l m y R Hi Hm; [destruct Hi|]. cbn [fold_res].
          destruct (m (s_entry x)) as [z|] eqn:Ex.
          - unfold s_insert_unique at 1.
            rewrite (insert_old s_less s_entry lt s_less_spec Nat.lt_irrefl Nat.lt_trans l m x z R Ex). reflexivity.
          - destruct Hi as [->|Hi]; [congruence|].
            destruct (insert_new s_less s_entry Nat.eqb lt Nat.eqb_spec s_less_spec Nat.lt_trans s_total l m x R Ex)
              as (l1 & E1 & R1). unfold s_insert_unique at 1. rewrite E1. cbn [bind].
            apply (IH l1 _ y R1 Hi). unfold mset. destruct (Nat.eqb_spec (s_entry e') (s_entry x)); [congruence|exact Hm]. }
        apply (Dup es l1 _ e R1 Hi). unfold mset. rewrite <- X. now rewrite Nat.eqb_refl.
      + apply (IH l1 (sput m e) R1). intros x Hx. unfold sput, mset.
        destruct (Nat.eqb_spec (s_entry x) (s_entry e)) as [Q|]; [|apply N; now right].
        exfalso. assert (existsb (fun e' => s_entry e =? s_entry e') es = true); [|congruence].
        apply existsb_exists. exists x. split; [exact Hx|]. apply Nat.eqb_eq. congruence.
  Qed.
  Lemma elt_pick {A} (l : list A) i : i < length l -> elt l i = pick l i.
  Proof. intros H. unfold pick. destruct (Nat.eqb_spec (length l) 1); [|reflexivity]. f_equal. lia. Qed.
  Lemma spread_self {A} (l : list A) : spread (length l) l = l.
  Proof. destruct l as [|x [|y l]]; reflexivity. Qed.

  Lemma s_node_step l m n : s_node_ok n -> repr s_entry lt l m ->
    match s_node_entries n with
    | Some es => exists l', s_node float_seq l n = Ok l' /\ repr s_entry lt l' (fold_left sput es m)
    | None => exists e, s_node float_seq l n = Throw e
    end.
  Proof.
    intros (O1 & O2 & O3 & O4 & O5) R. unfold s_node, s_node_entries.
    destruct n as [te tr tc tg]; cbn [n_index n_row n_column n_sgain] in *. unfold sequence in *.
    destruct te as [te|]; cbn [field bind]; [|eexists; reflexivity]. specialize (O1 te eq_refl).
    destruct tr as [tr|]; cbn [field bind]; [specialize (O2 tr eq_refl)|destruct (some_list _); eexists; reflexivity].
    destruct tc as [tc|]; cbn [field bind]; [specialize (O3 tc eq_refl)|
      destruct (some_list (index_sequence te)); [destruct (some_list (index_sequence tr))|]; eexists; reflexivity].
    destruct tg as [tg|]; cbn [field bind]; [specialize (O4 tg eq_refl)|
      destruct (some_list (index_sequence te)); [destruct (some_list (index_sequence tr)); [destruct (some_list (index_sequence tc))|]|];
      eexists; reflexivity].
    destruct (index_sequence te) as [es|e|]; cbn [bind some_list]; [|eexists; reflexivity|congruence].
    destruct (index_sequence tr) as [rs|e|]; cbn [bind some_list]; [|eexists; reflexivity|congruence].
    destruct (index_sequence tc) as [cs|e|]; cbn [bind some_list]; [|eexists; reflexivity|congruence].
    destruct (float_seq tg) as [gs|e|]; cbn [bind some_list]; [|eexists; reflexivity|congruence].
    destruct (O5 es rs cs eq_refl eq_refl eq_refl) as [O6 O7]. clear O5.
    set (k := length es) in *.
    assert (Fe : s_entries k (length rs) = if length (spread k rs) =? k then Ok k else Throw InvalidArgument).
    { unfold s_entries. destruct (Nat.eqb_spec (length (spread k rs)) k) as [A|A]; rewrite spread_length in A;
        destruct (Nat.eqb_spec (length rs) k); destruct (Nat.eqb_spec k 1);
        destruct (Nat.eqb_spec (length rs) 1); try lia; try reflexivity. }
    rewrite Fe. destruct (Nat.eqb_spec (length (spread k rs)) k) as [A|A]; cbn [andb bind]; [|eexists; reflexivity].
    destruct (Nat.eqb_spec (length (spread k cs)) k) as [C|C]; cbn [andb].
    - replace (negb (length cs =? k) && (k =? 1) && negb (length cs =? 1)) with false.
      2:{ rewrite spread_length in C. destruct (Nat.eqb_spec (length cs) k); [reflexivity|].
          destruct (Nat.eqb_spec (length cs) 1); [now rewrite andb_false_r|lia]. }
      cbn [bind]. destruct (Nat.eqb_spec (length (spread k gs)) k) as [D|D].
      + replace (negb (length gs =? 1) && negb (length gs =? k)) with false.
        2:{ rewrite spread_length in D. destruct (Nat.eqb_spec (length gs) 1); [reflexivity|].
            destruct (Nat.eqb_spec (length gs) k); [reflexivity|lia]. }
        cbn [bind].
        assert (B : length (spread k es) = k) by (unfold k; now rewrite spread_self).
        destruct (entries_loop (@MkS G) s_add sput (repr s_entry lt) s_add_ok es rs cs gs k B A C D k l m ltac:(lia) R) as (l' & E & R').
        rewrite Nat.sub_diag in E, R'. exists l'. split.
        * refine (eq_trans _ E). apply fold_res_ext. intros s i Hi. apply in_seq in Hi. rewrite elt_pick by (unfold k in Hi; lia). reflexivity.
        * unfold k in R' at 1. rewrite spread_self in R'. exact R'.
      + replace (negb (length gs =? 1) && negb (length gs =? k)) with true; [eexists; reflexivity|].
        rewrite spread_length in D. destruct (Nat.eqb_spec (length gs) 1), (Nat.eqb_spec (length gs) k); auto; lia.
    - rewrite spread_length in C. destruct O6 as [|[|K1]]; try lia.
      replace (negb (length cs =? k) && (k =? 1) && negb (length cs =? 1)) with true; [eexists; reflexivity|].
      destruct (Nat.eqb_spec (length cs) k), (Nat.eqb_spec k 1), (Nat.eqb_spec (length cs) 1); auto; lia.
  Qed.
  Lemma s_nodes_ok ns : Forall s_node_ok ns -> forall l m, repr s_entry lt l m ->
    match s_doc_entries ns with
    | Some es => exists l', fold_res (s_node float_seq) ns l = Ok l' /\ repr s_entry lt l' (fold_left sput es m)
    | None => exists e, fold_res (s_node float_seq) ns l = Throw e
    end.
  Proof.
    induction 1 as [|n ns O _ IH]; intros l m R; [simpl; exists l; auto|].
    cbn [s_doc_entries fold_res]. assert (N := s_node_step l m n O R). destruct (s_node_entries n) as [es|].
    - destruct N as (l1 & E1 & R1). rewrite E1. cbn [bind]. specialize (IH l1 _ R1).
      destruct (s_doc_entries ns) as [es'|].
      + destruct IH as (l' & E & R'). exists l'. split; [exact E|]. now rewrite fold_left_app.
      + exact IH.
    - destruct N as (e & E). rewrite E. exists e. reflexivity.
  Qed.

  Lemma s_step_ok l m op : sop_ok op -> repr s_entry lt l m ->
    repr s_entry lt (fst (s_step l op)) (fst (s_spec_step m op)) /\ snd (s_step l op) = snd (s_spec_step m op).
  Proof.
    intros O R. destruct op as [e|e|i|i o|es|doc]; cbn [s_step s_spec_step].
    - destruct (s_add_ok l m e R) as (l' & E & R'). rewrite E. auto.
    - destruct (s_remove_ok l m e R) as (l' & E & R'). rewrite E. auto.
    - split; [exact R|]. cbn [snd]. f_equal. unfold s_get.
      exact (find_repr s_less s_entry Nat.eqb lt Nat.eqb_spec s_less_spec Nat.lt_irrefl s_total l m (MkS i invalid invalid gain_one) R).
    - destruct (s_remove_ok l m (MkS i o invalid gain_one) R) as (l' & E & R'). unfold s_remove. rewrite E. auto.
    - assert (C := s_construct_ok es [] mempty (repr_empty s_entry lt) (fun _ _ => eq_refl)).
      unfold s_construct. destruct (s_distinctb es).
      + destruct C as (l' & E & R'). rewrite E. auto.
      + rewrite C. auto.
    - unfold s_parse, s_from_json. destruct O as [O1 O2]. destruct doc as [ns|e|]; [|auto|congruence].
      cbn [bind]. assert (D := s_nodes_ok ns (O2 ns eq_refl) [] mempty (repr_empty s_entry lt)).
      destruct (s_doc_entries ns) as [es|].
      + destruct D as (l' & E & R'). rewrite E. auto.
      + destruct D as (e & E). rewrite E. auto.
  Qed.
End S.
Arguments sop G : clear implicits.

(** Every history is that of a finite map keyed by the entry index; in particular
    removeRouting( input, output ) removes the entry whose index is the number passed as
    input, whatever its row and column (see C27_sparse_remove_refuted). *)
Theorem C27_sparse_map :
  forall {G : Type} (gain_one : G) invalid float_seq (ops : list (sop G)),
  Forall (sop_ok float_seq) ops ->
  let step := s_step gain_one invalid float_seq in
  let l := final step [] ops in
  let m := final (s_spec_step float_seq) mempty ops in
  outputs step [] ops = outputs (s_spec_step float_seq) mempty ops
  /\ StronglySorted (fun a b => s_entry a < s_entry b) l
  /\ (forall k e, m k = Some e <-> In e l /\ s_entry e = k)
  /\ NoDup (map (@s_entry G) l).
Proof.
  intros G gain_one invalid float_seq ops O step l m.
  assert (H : forall ops l0 m0, Forall (sop_ok float_seq) ops -> repr (@s_entry G) lt l0 m0 ->
    outputs step l0 ops = outputs (s_spec_step float_seq) m0 ops
    /\ repr (@s_entry G) lt (final step l0 ops) (final (s_spec_step float_seq) m0 ops)).
  { clear. induction ops as [|op ops IH]; intros l0 m0 O R; [auto|]. rewrite !outputs_cons, !final_cons.
    destruct (s_step_ok gain_one invalid float_seq l0 m0 op (Forall_inv O) R) as [R' E]. fold step in R', E. rewrite E.
    destruct (IH _ _ (Forall_inv_tail O) R') as [A B]. now rewrite A. }
  destruct (H ops [] mempty O (repr_empty (@s_entry G) lt)) as [A [S M]]. split; [exact A|]. split; [exact S|].
  split; [exact M|]. apply (repr_nodup (@s_entry G) lt Nat.lt_irrefl l m). now split.
Qed.
Print Assumptions C27_sparse_map.
Definition sparse_ops27 : list (sop nat) :=
  [ SAdd (MkS 2 0 1 5); SAdd (MkS 1 1 1 3); SAdd (MkS 2 4 4 4); SGet 2; SRemove 1 7; SGet 1;
    SAssign [MkS 3 0 0 1; MkS 3 1 1 1]; SGet 2;
    SParse (Ok [MkSNode (Some (txt "0:2")) (Some (txt "0,1,1")) (Some (txt "7")) (Some (txt "2.0"))]); SGet 2; SGet 1;
    SParse (Ok [MkSNode (Some (txt "0:2")) (Some (txt "0,1")) (Some (txt "7")) (Some (txt "2.0"))]); SGet 1 ].
Example C27_sparse_example :
  Forall (sop_ok floats) sparse_ops27
  /\ outputs (s_step 1 0 floats) [] sparse_ops27
  = [ SAccepted; SAccepted; SAccepted; SFound (Some (MkS 2 4 4 4)); SRemoved true; SFound None;
      SRejected; SFound (Some (MkS 2 4 4 4));
      SAccepted; SFound (Some (MkS 2 1 7 3)); SFound (Some (MkS 1 1 7 3)); SRejected; SFound (Some (MkS 1 1 7 3)) ].
Proof.
  split; [|reflexivity].
  assert (P : forall n, s_node_ok floats n -> sop_ok floats (SParse (Ok [n]))).
  { intros n H. split; [discriminate|]. intros ns [= <-]. now constructor. }
  repeat (apply Forall_cons; [try exact I|]); try apply Forall_nil;
    apply P; unfold s_node_ok, field_ok; cbn [n_index n_row n_column n_sgain];
    (split; [now intros s [= <-]|]); (split; [now intros s [= <-]|]); (split; [now intros s [= <-]|]);
    (split; [now intros s [= <-]|]);
    intros es rs cs [= <-] [= <-] [= <-]; cbn; (split; [auto|discriminate]).
Qed.

(** The documented meaning ("remove the entry at this matrix position") fails: the entry
    at row 0, column 1 is not found, and an entry at another position is removed. *)
Theorem C27_sparse_remove_refuted :
  exists (l : list (srouting nat)) i o,
    (forall e, In e l -> ~ (s_row e = i /\ s_col e = o)) /\ snd (s_remove 1 0 l i o) = true.
Proof. exists [MkS 3 0 1 9], 3, 3. split; [|reflexivity]. intros e [<-|[]]; simpl; lia. Qed.
Print Assumptions C27_sparse_remove_refuted.

(** fromJson() with a scalar "index" and several rows: only the first row is used (the
    number of entries is "set" to the number of entry indices). *)
Theorem C27_sparse_scalar_index_refuted :
  s_from_json floats (Ok [MkSNode (Some (txt "4")) (Some (txt "0,1,2")) (Some (txt "5")) (Some (txt "1"))])
  = Ok [MkS 4 0 5 1]
  /\ s_from_json floats (Ok [MkSNode (Some (txt "4")) (Some (txt "")) (Some (txt "5")) (Some (txt "1"))]) = UB.
Proof. split; vm_compute; reflexivity. Qed.
Print Assumptions C27_sparse_scalar_index_refuted.
