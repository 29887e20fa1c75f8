(** Common vocabulary of the model.

    [res] is the result of calling a C++ function: normal return, a C++ exception
    of the given standard class, or undefined behaviour.  Undefined behaviour is
    never replaced by a default value. *)

From Coq Require Export List Arith Lia Bool.
Export ListNotations.

Inductive exn : Type :=
| InvalidArgument   (* std::invalid_argument *)
| LogicError        (* std::logic_error *)
| OutOfRange        (* std::out_of_range *)
| RuntimeError      (* std::runtime_error *)
| CharPointer.      (* throw( "..." ): a char const *, not a std::exception *)

Inductive res (A : Type) : Type :=
| Ok (a : A)
| Throw (e : exn)
| UB.
Arguments Ok {A} a.
Arguments Throw {A} e.
Arguments UB {A}.

Definition bind {A B} (m : res A) (f : A -> res B) : res B :=
  match m with
  | Ok a => f a
  | Throw e => Throw e
  | UB => UB
  end.

Declare Scope res_scope.
Notation "x <- m ;; k" := (bind m (fun x => k))
  (at level 61, m at next level, right associativity) : res_scope.
Notation "' p <- m ;; k" := (bind m (fun x => match x with p => k end))
  (at level 61, p pattern, m at next level, right associativity) : res_scope.

Definition is_ok {A} (m : res A) : bool :=
  match m with Ok _ => true | _ => false end.

(** Run a list of operations of a state machine, collecting the outputs. *)
Section Run.
  Context {S Op Out : Type} (step : S -> Op -> S * Out).
  Fixpoint run (s : S) (ops : list Op) : S * list Out :=
    match ops with
    | [] => (s, [])
    | o :: os =>
        let '(s1, out) := step s o in
        let '(s2, outs) := run s1 os in
        (s2, out :: outs)
    end.
  Definition final (s : S) (ops : list Op) : S := fst (run s ops).
  Definition outputs (s : S) (ops : list Op) : list Out := snd (run s ops).

  Lemma final_nil s : final s [] = s.
  Proof. reflexivity. Qed.

  Lemma final_cons s o os : final s (o :: os) = final (fst (step s o)) os.
  Proof.
    unfold final; simpl. destruct (step s o) as [s1 out]; simpl.
    destruct (run s1 os); reflexivity.
  Qed.

  Lemma outputs_cons s o os :
    outputs s (o :: os) = snd (step s o) :: outputs (fst (step s o)) os.
  Proof.
    unfold outputs; simpl. destruct (step s o) as [s1 out]; simpl.
    destruct (run s1 os); reflexivity.
  Qed.

  Lemma final_app s os1 os2 : final s (os1 ++ os2) = final (final s os1) os2.
  Proof.
    revert s; induction os1; intros s; [reflexivity|].
    rewrite <- app_comm_cons, !final_cons. apply IHos1.
  Qed.

  (** Invariant induction over all histories. *)
  Lemma final_invariant (I : S -> Prop) :
    (forall s o, I s -> I (fst (step s o))) ->
    forall ops s, I s -> I (final s ops).
  Proof.
    intros Hstep ops; induction ops; intros s Hs; [exact Hs|].
    rewrite final_cons. apply IHops, Hstep, Hs.
  Qed.
End Run.

Lemma Ok_inj {A} (a b : A) : Ok a = Ok b -> a = b.
Proof. intros E. injection E. auto. Qed.
Lemma Some_inj {A} (a b : A) : Some a = Some b -> a = b.
Proof. intros E. injection E. auto. Qed.

(** Helpers for concrete cases: the result of a computation known to succeed. *)
Definition the {A} (d : A) (r : res A) : A := match r with Ok a => a | _ => d end.
Lemma the_ok {A} (d : A) r : is_ok r = true -> r = Ok (the d r).
Proof. destruct r; [reflexivity|discriminate|discriminate]. Qed.
