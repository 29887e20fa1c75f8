(** C44: ObjectVector is a finite map keyed by object id. *)
From Verif Require Import Base OrdSet ObjectVectorModel.
From Coq Require Import Sorted List Lia.
Import ListNotations.
Local Open Scope res_scope.
Local Open Scope nat_scope.

Section C44.
  Context {T B Name Tree : Type} (eqt : T -> T -> bool)
          (string_to_type : Name -> res T) (create : T -> res B) (parser : T -> res (Tree -> B -> res B)).
  Local Notation object := (object T B).
  Local Notation node := (node Name Tree).

  Inductive oop :=
  | OInsert (o : object) | OAt (id : nat) | ORemove (id : nat) | OClear
  | OAssign (history : list object)    (* assign from another vector filled by insertions *)
  | OFill (message : res (option (list node))) | OUpdate (message : res (option (list node))).
  Inductive oevent := ODone | OFailed (e : exn) | OUndefined | OObject (o : object).
  Definition report (r : res unit) : oevent := match r with Ok _ => ODone | Throw e => OFailed e | UB => OUndefined end.

  Definition o_step (l : list object) (op : oop) : list object * oevent :=
    match op with
    | OInsert o => (v_insert l o, ODone)
    | OAt id => (l, match v_at l id with Ok o => OObject o | Throw e => OFailed e | UB => OUndefined end)
    | ORemove id => match v_remove l id with Ok l' => (l', ODone) | Throw e => (l, OFailed e) | UB => (l, OUndefined) end
    | OClear => ([], ODone)
    | OAssign h => (v_assign (fold_left v_insert h []), ODone)
    | OFill m => let '(l', r) := v_fill eqt string_to_type create parser l m in (l', report r)
    | OUpdate m => let '(l', r) := v_update eqt string_to_type create parser l m in (l', report r)
    end.

  (** Specification: a partial function from ids to type and content *)
  Definition omap := nat -> option (T * B).
  Definition oput (m : omap) (o : object) : omap := mset Nat.eqb m (o_id o) (Some (o_type o, o_body o)).
  (** one object of a message: an existing object of the same type is modified, otherwise
      a new one is created *)
  Definition spec_node (m : omap) (n : node) : res omap :=
    match n_type n, n_id n with
    | Some name, Some id =>
        t <- string_to_type name ;; p <- parser t ;;
        b <- match m id with Some (t', b) => if eqt t' t then Ok b else create t | None => create t end ;;
        b' <- p (n_tree n) b ;; Ok (mset Nat.eqb m id (Some (t, b')))
    | _, _ => Throw RuntimeError
    end.
  Fixpoint spec_nodes (m : omap) (ns : list node) : omap * res unit :=
    match ns with
    | [] => (m, Ok tt)
    | n :: r => match spec_node m n with
                | Ok m' => spec_nodes m' r
                | Throw e => (m, Throw (rethrow e))
                | UB => (m, UB)
                end
    end.
  Definition spec_message (m : omap) (msg : res (option (list node))) : omap * res unit :=
    match msg with
    | Ok (Some ns) => spec_nodes m ns
    | Ok None => (m, Throw RuntimeError)
    | Throw e => (m, Throw (rethrow e))
    | UB => (m, UB)
    end.
  Definition o_spec_step (m : omap) (op : oop) : omap * oevent :=
    match op with
    | OInsert o => (oput m o, ODone)
    | OAt id => (m, match m id with Some (t, b) => OObject (MkObject id t b) | None => OFailed InvalidArgument end)
    | ORemove id => match m id with Some _ => (mset Nat.eqb m id None, ODone) | None => (m, OFailed InvalidArgument) end
    | OClear => (mempty, ODone)
    | OAssign h => (fold_left oput h mempty, ODone)
    | OFill msg => let '(m', r) := spec_message mempty msg in
                   (match r with Ok _ => m' | _ => m end, report r)
    | OUpdate msg => let '(m', r) := spec_message m msg in (m', report r)
    end.

  Lemma o_less_spec (a b : object) : o_less a b = true <-> o_id a < o_id b.
  Proof. unfold o_less. apply Nat.ltb_lt. Qed.
  Lemma nat_total (a b : nat) : a < b \/ a = b \/ b < a. Proof. lia. Qed.
  Definition orel (l : list object) (m : omap) : Prop :=
    repr o_id lt l (fun id => option_map (fun p => MkObject id (fst p) (snd p)) (m id)).
  Lemma orel_empty : orel [] mempty.
  Proof. exact (repr_empty o_id lt). Qed.
  Lemma v_find_set (l : list object) id o : o_id o = id -> v_find id l = set_find o_less o l.
  Proof. intros <-. reflexivity. Qed.
  Lemma orel_find l m id : orel l m -> v_find id l = option_map (fun p => MkObject id (fst p) (snd p)) (m id).
  Proof.
    intros P. destruct (v_find id l) as [o|] eqn:E.
    - unfold v_find in E. apply find_some in E as [H E].
      assert (o_id o = id).
      { apply andb_prop in E as [E1 E2]. apply Bool.negb_true_iff in E1, E2. apply Nat.ltb_ge in E1, E2. lia. }
      subst id. symmetry. now apply P.
    - destruct (m id) as [[t b]|] eqn:Em; [|reflexivity]. exfalso.
      assert (H : In (MkObject id t b) l). { apply (proj1 (proj2 P id (MkObject id t b))). cbn. now rewrite Em. }
      assert (N := find_none _ _ E _ H). cbn [o_id] in N. rewrite Nat.ltb_irrefl in N. discriminate.
  Qed.
  Lemma orel_insert l m o : orel l m -> orel (v_insert l o) (oput m o).
  Proof.
    intros P. destruct (replace_repr o_less o_id Nat.eqb lt Nat.eqb_spec o_less_spec Nat.lt_irrefl Nat.lt_trans nat_total l _ o P)
      as (l' & E & P').
    assert (v_insert l o = l').
    { unfold v_insert. unfold set_replace in E. rewrite (v_find_set l (o_id o) o eq_refl).
      destruct (set_find o_less o l) as [o'|] eqn:F.
      - assert (o_id o' = o_id o).
        { rewrite (find_repr o_less o_id Nat.eqb lt Nat.eqb_spec o_less_spec Nat.lt_irrefl nat_total l _ o P) in F.
          now apply (repr_key o_id lt l _ _ _ P) in F. }
        assert (set_erase o_less o' l = set_erase o_less o l) as ->.
        { clear -H. induction l as [|x l IH]; [reflexivity|]. simpl. rewrite IH. unfold equiv, o_less. now rewrite H. }
        now rewrite E.
      - now rewrite E. }
    subst l'. refine (repr_ext _ _ _ _ _ _ P'). intros k. unfold mset, oput, mset.
    destruct (Nat.eqb_spec k (o_id o)); [subst; now destruct o|reflexivity].
  Qed.
  Lemma orel_erase l m id o : orel l m -> v_find id l = Some o -> orel (set_erase o_less o l) (mset Nat.eqb m id None).
  Proof.
    intros P F. rewrite (orel_find l m id P) in F. destruct (m id) as [p|]; [|discriminate]. injection F as <-.
    refine (repr_ext _ _ _ _ _ _ (erase_repr o_less o_id Nat.eqb lt Nat.eqb_spec o_less_spec Nat.lt_irrefl nat_total l _ _ P)).
    intros k. unfold mset. cbn [o_id]. now destruct (k =? id).
  Qed.
  Lemma orel_inserts h : forall l m, orel l m -> orel (fold_left v_insert h l) (fold_left oput h m).
  Proof. induction h as [|o h IH]; intros l m P; [exact P|]. simpl. apply IH. now apply orel_insert. Qed.
  Lemma assign_same l : StronglySorted (fun a b : object => o_id a < o_id b) l -> v_assign l = l.
  Proof.
    intros S. unfold v_assign.
    assert (G : forall r l0 : list object, StronglySorted (fun a b => o_id a < o_id b) (l0 ++ r) ->
              fold_left (fun l o => fst (set_insert o_less o l)) r l0 = l0 ++ r).
    { clear. induction r as [|o r IH]; intros l0 S; [now rewrite app_nil_r|]. simpl.
      assert (E : fst (set_insert o_less o l0) = l0 ++ [o]).
      { assert (H : forall x, In x l0 -> o_id x < o_id o).
        { intros x Hx. clear -S Hx. induction l0 as [|y l0 IH]; [destruct Hx|]. simpl in S.
          apply StronglySorted_inv in S as [S F]. destruct Hx as [->|Hx]; [|now apply IH].
          rewrite Forall_forall in F. apply F. apply in_or_app. right. now left. }
        clear -H. induction l0 as [|y l0 IH]; [reflexivity|]. simpl. unfold o_less at 1.
        assert (L := H y (or_introl eq_refl)). destruct (Nat.ltb_spec (o_id o) (o_id y)); [lia|].
        unfold o_less at 1. destruct (Nat.ltb_spec (o_id y) (o_id o)); [|lia].
        destruct (set_insert o_less o l0) as [r' b] eqn:Q. cbn [fst] in *. f_equal. apply IH. intros x Hx. apply H. now right. }
      rewrite E. rewrite IH; [now rewrite <- app_assoc|]. now rewrite <- app_assoc. }
    now rewrite (G l []).
  Qed.
  Lemma parse_ok l m n : orel l m ->
    match parse_object eqt string_to_type create parser l n, spec_node m n with
    | Ok l', Ok m' => orel l' m'
    | Throw e, Throw e' => e = e'
    | UB, UB => True
    | _, _ => False
    end.
  Proof.
    intros P. unfold parse_object, spec_node. destruct (n_type n) as [name|]; [|reflexivity].
    destruct (n_id n) as [id|]; [|reflexivity]. cbn [get bind].
    destruct (string_to_type name) as [t|e|]; cbn [bind]; [|reflexivity|exact I].
    destruct (parser t) as [p|e|]; cbn [bind]; [|reflexivity|exact I].
    rewrite (orel_find l m id P).
    assert (E : match option_map (fun p0 : T * B => MkObject id (fst p0) (snd p0)) (m id) with
                | Some o => if eqt (o_type o) t then Ok (o_body o) else create t
                | None => create t
                end = match m id with Some (t', b) => if eqt t' t then Ok b else create t | None => create t end).
    { destruct (m id) as [[t' b]|]; reflexivity. }
    rewrite E. destruct (match m id with Some (t', b) => if eqt t' t then Ok b else create t | None => create t end)
      as [b|e|]; cbn [bind]; [|reflexivity|exact I].
    destruct (p (n_tree n) b) as [b'|e|]; cbn [bind]; [|reflexivity|exact I].
    exact (orel_insert l m (MkObject id t b') P).
  Qed.
  Lemma each_ok ns : forall l m, orel l m ->
    orel (fst (update_each eqt string_to_type create parser l ns)) (fst (spec_nodes m ns))
    /\ snd (update_each eqt string_to_type create parser l ns) = snd (spec_nodes m ns).
  Proof.
    induction ns as [|n ns IH]; intros l m P; [auto|]. cbn [update_each spec_nodes].
    assert (N := parse_ok l m n P).
    destruct (parse_object eqt string_to_type create parser l n), (spec_node m n); try contradiction; auto. now subst.
  Qed.
  Lemma update_ok l m msg : orel l m ->
    orel (fst (v_update eqt string_to_type create parser l msg)) (fst (spec_message m msg))
    /\ snd (v_update eqt string_to_type create parser l msg) = snd (spec_message m msg).
  Proof. intros P. destruct msg as [[ns|]|e|]; cbn; auto. now apply each_ok. Qed.

  Lemma o_step_ok l m op : orel l m ->
    orel (fst (o_step l op)) (fst (o_spec_step m op)) /\ snd (o_step l op) = snd (o_spec_step m op).
  Proof.
    intros P. destruct op as [o|id|id| |h|msg|msg]; cbn [o_step o_spec_step].
    - split; [now apply orel_insert|reflexivity].
    - split; [exact P|]. cbn [snd]. unfold v_at. rewrite (orel_find l m id P). now destruct (m id) as [[t b]|].
    - unfold v_remove. destruct (v_find id l) as [o|] eqn:F.
      + assert (Q := orel_erase l m id o P F). rewrite (orel_find l m id P) in F. destruct (m id) as [p|]; [|discriminate]. auto.
      + rewrite (orel_find l m id P) in F. destruct (m id) as [p|]; [discriminate|]. auto.
    - split; [exact orel_empty|reflexivity].
    - assert (Q := orel_inserts h [] mempty orel_empty). split; [|reflexivity]. cbn [fst]. rewrite assign_same; [exact Q|]. apply Q.
    - unfold v_fill. destruct (update_ok [] mempty msg orel_empty) as [A E].
      destruct (v_update eqt string_to_type create parser [] msg) as [l' r], (spec_message mempty msg) as [m' r'].
      cbn [fst snd] in *. subst r'. destruct r; auto.
    - destruct (update_ok l m msg P) as [A E].
      destruct (v_update eqt string_to_type create parser l msg) as [l' r], (spec_message m msg) as [m' r'].
      cbn [fst snd] in *. subst r'. auto.
  Qed.
End C44.

Theorem C44_object_vector :
  forall {T B Name Tree : Type} (eqt : T -> T -> bool)
         (string_to_type : Name -> res T) (create : T -> res B) (parser : T -> res (Tree -> B -> res B))
         (ops : list (@oop T B Name Tree)),
  let step := o_step eqt string_to_type create parser in
  let spec := o_spec_step eqt string_to_type create parser in
  let l := final step [] ops in
  let m := final spec mempty ops in
  outputs step [] ops = outputs spec mempty ops
  (* iteration visits exactly the objects of the map in ascending order of ids *)
  /\ StronglySorted (fun a b => o_id a < o_id b) l
  /\ (forall id t b, In (MkObject id t b) l <-> m id = Some (t, b))
  (* size() is the number of ids *)
  /\ (forall ids, NoDup ids -> (forall id, In id ids <-> m id <> None) -> length l = length ids).
Proof.
  intros T B Name Tree eqt string_to_type create parser ops step spec l m.
  assert (H : forall ops l0 m0, orel l0 m0 -> outputs step l0 ops = outputs spec m0 ops /\ orel (final step l0 ops) (final spec m0 ops)).
  { clear. induction ops as [|op ops IH]; intros l0 m0 P; [auto|]. rewrite !outputs_cons, !final_cons.
    destruct (o_step_ok eqt string_to_type create parser l0 m0 op P) as [P' E]. fold step spec in P', E. rewrite E.
    destruct (IH _ _ P') as [A Q]. now rewrite A. }
  destruct (H ops [] mempty orel_empty) as [A P]. fold l m in P. split; [exact A|]. split; [apply P|].
  assert (M : forall id t b, In (MkObject id t b) l <-> m id = Some (t, b)).
  { intros id t b. assert (Q := proj2 P id (MkObject id t b)). cbn in Q. split.
    - intros Hi. assert (Q' := proj2 Q (conj Hi eq_refl)). destruct (m id) as [[t' b']|]; [|discriminate]. now injection Q' as -> ->.
    - intros E. rewrite E in Q. now apply Q. }
  split; [exact M|].
  intros ids D Di. rewrite <- (map_length o_id l).
  assert (Dl := repr_nodup o_id lt Nat.lt_irrefl l _ P).
  assert (I : forall id, In id (map o_id l) <-> In id ids).
  { intros id. rewrite Di, in_map_iff. split.
    - intros ([id' t b] & <- & Hi). apply M in Hi. cbn. congruence.
    - intros N. destruct (m id) as [[t b]|] eqn:E; [|congruence]. exists (MkObject id t b). split; [reflexivity|]. now apply M. }
  apply Nat.le_antisymm; apply NoDup_incl_length; auto; intros id; apply I.
Qed.
Print Assumptions C44_object_vector.

(** Failed parsing with fillObjectVector leaves the vector unchanged, whatever was parsed
    before the error. *)
Theorem C44_fill_strong :
  forall {T B Name Tree : Type} (eqt : T -> T -> bool)
         (string_to_type : Name -> res T) (create : T -> res B) (parser : T -> res (Tree -> B -> res B))
         (l : list (object T B)) ns1 n ns2 l1,
  update_each eqt string_to_type create parser [] ns1 = (l1, Ok tt) ->
  (exists e, parse_object eqt string_to_type create parser l1 n = Throw e) ->
  exists e, v_fill eqt string_to_type create parser l (Ok (Some (ns1 ++ n :: ns2))) = (l, Throw e).
Proof.
  intros T B Name Tree eqt string_to_type create parser l ns1 n ns2 l1 E (e & Ee). exists (rethrow e). unfold v_fill, v_update.
  assert (H : forall ns l0, update_each eqt string_to_type create parser l0 ns = (l1, Ok tt) ->
     update_each eqt string_to_type create parser l0 (ns ++ n :: ns2) = (l1, Throw (rethrow e))).
  { clear E. induction ns as [|n1 ns IH]; intros l0 E; cbn [app update_each] in *.
    - apply (f_equal fst) in E. cbn [fst] in E. subst l0. now rewrite Ee.
    - destruct (parse_object eqt string_to_type create parser l0 n1); [now apply IH|discriminate|discriminate]. }
  now rewrite (H ns1 [] E).
Qed.
Print Assumptions C44_fill_strong.

(** Object types [bool], contents [nat]; an object of type [false] takes its content from the
    message, type [true] adds it. *)
Definition ex_type (n : nat) : res bool := match n with 0 => Ok false | 1 => Ok true | _ => Throw InvalidArgument end.
Definition ex_parser (t : bool) : res (nat -> nat -> res nat) :=
  Ok (fun x b => if x =? 99 then Throw RuntimeError else if t then Ok (b + x) else Ok x).
Example C44_example :
  let step := o_step Bool.eqb ex_type (fun _ => Ok 0) ex_parser in
  outputs step []
    [ OInsert (MkObject 4 true 1); OInsert (MkObject 2 false 5); OInsert (MkObject 4 true 7); OAt 4; OAt 3; ORemove 3;
      OUpdate (Ok (Some [MkNode (Some 1) (Some 4) 3; MkNode (Some 1) (Some 2) 3; MkNode (Some 2) (Some 2) 8])); OAt 4; OAt 2;
      OFill (Ok (Some [MkNode (Some 1) (Some 4) 3; MkNode (Some 1) (Some 4) 99])); OAt 4;
      OFill (Ok (Some [MkNode (Some 1) (Some 4) 3; MkNode (Some 1) (Some 4) 1])); OAt 4; OAt 2 ]
  = [ ODone; ODone; ODone; OObject (MkObject 4 true 7); OFailed InvalidArgument; OFailed InvalidArgument;
      OFailed InvalidArgument; OObject (MkObject 4 true 10); OObject (MkObject 2 true 3);
      OFailed InvalidArgument; OObject (MkObject 4 true 10);
      ODone; OObject (MkObject 4 true 4); OFailed InvalidArgument ].
Proof. reflexivity. Qed.
Example C44_fill_example :
  update_each Bool.eqb ex_type (fun _ => Ok 0) ex_parser [] [MkNode (Some 1) (Some 4) 3] = ([MkObject 4 true 3], Ok tt)
  /\ exists e, parse_object Bool.eqb ex_type (fun _ => Ok 0) ex_parser [MkObject 4 true 3] (MkNode (Some 1) (Some 4) 99) = Throw e.
Proof. split; [reflexivity|]. eexists. reflexivity. Qed.

(** Arguments that refer into the vector itself: insert( v.at( id ) ) clones the object
    after it has been destroyed, v.assign( v ) empties the vector. *)
Theorem C44_aliasing_refuted :
  v_insert_own [MkObject 1 tt 5] 1 = UB
  /\ v_assign_self [MkObject 1 tt 5] = [].
Proof. split; reflexivity. Qed.
Print Assumptions C44_aliasing_refuted.
