(** C85: parameter configurations, the objects made from them, and their assignment. *)
From Coq Require Import String NArith.
From Verif Require Import Base FlowModel FlowProofs InfraModel InfraSpec InfraProps.
From Verif Require Import ParamModel ParamSpec ParamProofs.

(** Configurations of the same class are compared by their contents, those of different classes are
    rejected. *)
Theorem C85_compare : forall a b, class_of a <> KInterpolation ->
  match compare a b with
  | None => class_of a <> class_of b
  | Some r => class_of a = class_of b /\ (r = true <-> a = b)
  end.
Proof.
  intros a b H. destruct a, b; cbn in *; try discriminate; try congruence;
    rewrite ?andb_true_iff, ?Nat.eqb_eq; (split; [reflexivity|]); intuition congruence.
Qed.
Example ex_compare : compare (CMatrix 2 3) (CMatrix 2 3) = Some true /\ compare (CMatrix 2 3) (CMatrix 3 2) = Some false
  /\ compare (CMatrix 2 3) (CVector 2) = None.
Proof. repeat split. Qed.
(** Not so for InterpolationParameterConfig: it equals every configuration, and the order matters. *)
Theorem C85_interpolation_refuted :
  (exists a b, class_of a = class_of b /\ a <> b /\ compare a b = Some true)
  /\ (exists a b, class_of a <> class_of b /\ compare a b = Some true /\ compare b a = None).
Proof.
  split; [exists (CInterpolation 2), (CInterpolation 3)|exists (CInterpolation 2), (CVector 3)]; repeat split; discriminate.
Qed.

(** An object is made if the configuration has the class that describes objects of the type, and then
    has the dimensions of the configuration; otherwise an exception is thrown.  SignalRoutingParameter
    and LateReverbParameter accept all configurations. *)
Theorem C85_construct : forall V (initial : ptype -> shape -> V) t c,
  match construct initial t c with
  | Done o => o_type o = t /\ o_value o = initial t (o_shape o) /\ (class_of c = needed_config t \/ any_config t)
              /\ (needed_config t = KEmpty -> o_shape o = NoShape) /\ (needed_config t <> KEmpty -> dimensions c (o_shape o))
  | Failed f => class_of c <> needed_config t /\ ~ any_config t
                /\ ((reports_argument t /\ f = E InvalidArgument) \/ (~ reports_argument t /\ f = BadCast))
  end.
Proof.
  intros V initial t c. unfold any_config.
  destruct t, c; cbn; (split; [congruence|]); (split; [try reflexivity; intros [|]; discriminate|]); intuition (try congruence; try constructor).
  destruct rows; constructor.
Qed.
Example ex_construct : construct (fun _ _ => 0) (TimeFrequency Double) (CTimeFrequency 129 2 3) = Done (Object (TimeFrequency Double) (SpectraShape 6 129 2) 0)
  /\ construct (fun _ _ => 0) (Vector (RealEl Single)) (CMatrix 2 2) = Failed BadCast
  /\ construct (fun _ _ => 0) FilterRouting (CMatrix 2 2) = Failed (E InvalidArgument).
Proof. repeat split. Qed.

(** The configuration that is declared for a type is the one its constructor takes, ... *)
Theorem C85_declared : forall V (initial : ptype -> shape -> V) t,
  (forall p, t <> BiquadCoefficient p /\ t <> BiquadCoefficientList p) ->
  declared_config t = needed_config t /\ (forall c, class_of c = declared_config t -> exists o, construct initial t c = Done o).
Proof.
  intros V initial t N.
  assert (D : declared_config t = needed_config t) by (destruct t as [p|p| | | | | | | | | | | | | | | | | | ]; try reflexivity; destruct (N p); congruence).
  split; [exact D|]. intros c. rewrite D. intros Hc.
  pose proof (C85_construct V initial t c) as X. destruct (construct initial t c) as [o|f]; [now exists o|]. destruct X as (X & _). contradiction.
Qed.
Example ex_declared : exists o, construct (fun _ _ => 0) PanningMatrix (CMatrix 3 2) = Done o /\ o_shape o = MatrixShape 3 2.
Proof. eexists. split; reflexivity. Qed.
(** ... but not for the coefficients of biquad filters: no object can be made for a port of this type. *)
Theorem C85_declared_refuted : forall p, exists t t', t = BiquadCoefficient p /\ t' = BiquadCoefficientList p /\
  forall V (initial : ptype -> shape -> V) c,
  (class_of c = declared_config t -> construct initial t c = Failed (E InvalidArgument)) /\
  (class_of c = declared_config t' -> construct initial t' c = Failed (E InvalidArgument)).
Proof.
  intros p. exists (BiquadCoefficient p), (BiquadCoefficientList p). split; [reflexivity|]. split; [reflexivity|].
  intros V initial c. split; destruct c; cbn; congruence.
Qed.

(** The parameter objects of a connection. *)
Theorem C85_protocol : forall V (initial : ptype -> shape -> V) h m kid i c,
  match createProtocol initial (pafter h) m kid i c with
  | Done (k, l) => (exists e, In e (pafter h) /\ e_id e = kid /\ e_kind e = k) /\ List.length l = copies k
                   /\ (forall o, In o l -> create initial m i c = Done o)
  | Failed f => (f = E OutOfRange /\ (forall e, In e (pafter h) -> e_id e <> kid))
                \/ (exists e, In e (pafter h) /\ e_id e = kid /\ copies (e_kind e) <> 0 /\ create initial m i c = Failed f)
  end.
Proof.
  intros V initial h m kid i c. unfold createProtocol. destruct (pfind kid (pafter h)) as [e|] eqn:F.
  - apply pfind_some in F as [F1 F2]. unfold construct_protocol. destruct (e_kind e) eqn:K.
    + destruct (create initial m i c) as [o|f] eqn:C.
      * split; [now exists e|]. split; [reflexivity|]. intros x [<-|[<-|[]]]; exact eq_refl.
      * right. exists e. rewrite K. cbn. auto.
    + split; [now exists e|]. split; [reflexivity|]. intros x [].
    + destruct (create initial m i c) as [o|f] eqn:C.
      * split; [now exists e|]. split; [reflexivity|]. intros x [<-|[]]. exact eq_refl.
      * right. exists e. rewrite K. cbn. auto.
  - left. split; [reflexivity|]. now apply pfind_none.
Qed.
Definition ex_table : table := [(3%N, Vector (RealEl Single)); (4%N, Interpolation); (5%N, PanningMatrix)].
Definition ex_ptable : ptable := pafter [PRegister (PEntry 1 "DoubleBuffering" DoubleBuffering); PRegister (PEntry 2 "MessageQueue" MessageQueue)].
Example ex_protocol : createProtocol (fun _ _ => 0) ex_ptable ex_table 1 3 (CVector 4)
    = Done (DoubleBuffering, [Object (Vector (RealEl Single)) (VectorShape 4) 0; Object (Vector (RealEl Single)) (VectorShape 4) 0])
  /\ createProtocol (fun _ _ => 0) ex_ptable ex_table 2 9 CEmpty = Done (MessageQueue, [])
  /\ createProtocol (fun _ _ => 0) ex_ptable ex_table 1 9 CEmpty = Failed (E InvalidArgument)
  /\ createProtocol (fun _ _ => 0) ex_ptable ex_table 7 3 (CVector 4) = Failed (E OutOfRange).
Proof. repeat split. Qed.

(** objects as the constructors make them, with arbitrary contents *)
Definition shaped {V} (o : object V) : Prop :=
  exists c u, construct (fun _ _ => o_value o) (o_type o) c = Done u /\ o_shape o = o_shape u.
Definition fixed_size (t : ptype) : Prop := exists e, t = Vector e \/ t = Matrix e.

Lemma ptype_eqb_eq a b : ptype_eqb a b = true <-> a = b.
Proof.
  destruct a as [p|p|p| | |p| | | |e| |s| | | | |p|e| |], b as [q|q|q| | |q| | | |f| |r| | | | |q|f| |];
    cbn; try (split; [discriminate|congruence]); try (split; reflexivity).
  all: try (destruct p, q; cbn; split; (reflexivity || discriminate)).
  all: try (destruct e as [p|p], f as [q|q]; cbn; try destruct p, q; cbn; split; (reflexivity || discriminate)).
  destruct s as [| | |e], r as [| | |f]; cbn; try (split; (reflexivity || discriminate)).
  destruct e as [p|p], f as [q|q]; cbn; try destruct p, q; cbn; split; (reflexivity || discriminate).
Qed.

(** Assignment: the target equals the source afterwards, or there is an exception, because the classes
    differ, because vectors or matrices have different dimensions, or for a PanningMatrixParameter that
    is not square. *)
Theorem C85_assign : forall V (zero_gains : V -> V) (a b : object V), shaped a -> shaped b ->
  match assign zero_gains a b with
  | (r, None) => r = b /\ o_type a = o_type b /\ (fixed_size (o_type a) -> o_shape a = o_shape b)
                 /\ (forall n k, o_type b = PanningMatrix -> o_shape b = MatrixShape n k -> n = k)
  | (r, Some f) =>
      (r = a /\ o_type a <> o_type b /\ f = E InvalidArgument)
      \/ (r = a /\ o_type a = o_type b /\ o_shape a <> o_shape b
          /\ exists e, (o_type a = Vector e /\ f = E OutOfRange) \/ (o_type a = Matrix e /\ f = E InvalidArgument))
      \/ (o_type a = PanningMatrix /\ o_type b = PanningMatrix /\ f = E InvalidArgument
          /\ exists n k, o_shape b = MatrixShape n k /\ n <> k /\ r = Object PanningMatrix (MatrixShape k n) (zero_gains (o_value b)))
  end.
Proof.
  intros V z a b (ca & ua & Ca & Sa) (cb & ub & Cb & Sb). unfold assign, fixed_size.
  destruct (ptype_eqb (o_type a) (o_type b)) eqn:T; cbn [negb].
  2: { left. split; [reflexivity|]. split; [|reflexivity]. intros X. apply ptype_eqb_eq in X. congruence. }
  apply ptype_eqb_eq in T. rewrite T in *.
  destruct (o_type b) eqn:TB, ca, cb; cbn in Ca, Cb; try discriminate Ca; try discriminate Cb;
    injection Ca as <-; injection Cb as <-; cbn [o_shape] in Sa, Sb; rewrite ?Sa, ?Sb;
    try (split; [reflexivity|]; split; [reflexivity|]; split; [intros [x [X|X]]; discriminate|intros n k X; discriminate]).
  - destruct (rows =? rows0) eqn:R, (columns =? columns0) eqn:C; cbn [negb orb];
      rewrite ?Nat.eqb_eq, ?Nat.eqb_neq in *;
      try (right; left; split; [reflexivity|]; split; [reflexivity|]; split; [congruence|]; exists e; right; auto).
    subst. split; [reflexivity|]. split; [reflexivity|]. split; [reflexivity|]. intros n k X. discriminate.
  - destruct (elements =? elements0) eqn:R; cbn [negb]; rewrite ?Nat.eqb_eq, ?Nat.eqb_neq in *.
    + subst. split; [reflexivity|]. split; [reflexivity|]. split; [reflexivity|]. intros n k X. discriminate.
    + right; left; split; [reflexivity|]; split; [reflexivity|]; split; [congruence|]; exists e; left; auto.
  - destruct (columns0 =? rows0) eqn:R; cbn [negb orb]; rewrite ?(Nat.eqb_sym rows0 columns0), ?R; cbn [negb];
      rewrite ?Nat.eqb_eq, ?Nat.eqb_neq in *.
    + split; [reflexivity|]. split; [reflexivity|]. split; [intros [x [X|X]]; discriminate|]. intros n k _ [= <- <-]. now symmetry.
    + right; right. split; [reflexivity|]. split; [reflexivity|]. split; [reflexivity|]. exists rows0, columns0. split; [reflexivity|]. split; [congruence|reflexivity].
Qed.
Example ex_assign :
  let v n x := Object (Vector (RealEl Single)) (VectorShape n) x in
  shaped (v 3 7) /\ assign S (v 3 7) (v 3 8) = (v 3 8, None) /\ assign S (v 3 7) (v 4 8) = (v 3 7, Some (E OutOfRange)).
Proof. cbn zeta. split; [|split; reflexivity]. exists (CVector 3). eexists. split; reflexivity. Qed.
(** If the assignment of PanningMatrixParameter throws, the target does not keep its contents, although
    the dimensions of target and source agree. *)
Theorem C85_assign_refuted : exists a b : object nat, shaped a /\ shaped b /\ o_type a = o_type b /\ o_shape a = o_shape b
  /\ exists r, assign S a b = (r, Some (E InvalidArgument)) /\ o_shape r <> o_shape a /\ o_value r <> o_value a.
Proof.
  exists (Object PanningMatrix (MatrixShape 2 3) 7), (Object PanningMatrix (MatrixShape 2 3) 8).
  split; [exists (CMatrix 2 3); eexists; split; reflexivity|]. split; [exists (CMatrix 2 3); eexists; split; reflexivity|].
  split; [reflexivity|]. split; [reflexivity|]. eexists. split; [reflexivity|]. split; discriminate.
Qed.
(** Lists of biquad coefficients of different lengths are assigned, although the exception for this
    case is documented. *)
Theorem C85_list_size_refuted : exists a b : object nat, shaped a /\ shaped b /\ o_type a = BiquadCoefficientList Double
  /\ o_shape a <> o_shape b /\ assign S a b = (b, None).
Proof.
  exists (Object (BiquadCoefficientList Double) (VectorShape 2) 7), (Object (BiquadCoefficientList Double) (VectorShape 3) 8).
  split; [exists (CVector 2); eexists; split; reflexivity|]. split; [exists (CVector 3); eexists; split; reflexivity|].
  split; [reflexivity|]. split; [discriminate|reflexivity].
Qed.

(** Both objects of a double buffer have the same class and the same dimensions at first.  Swapping the
    buffers exchanges them; with copying the receivers see the value they saw before, ... *)
Theorem C85_swap : forall V (initial : ptype -> shape -> V) (zero_gains : V -> V) h m kid i c back front x y,
  createProtocol initial (pafter h) m kid i c = Done (DoubleBuffering, [back; front]) ->
  let b := Object (o_type back) (o_shape back) x in let f := Object (o_type front) (o_shape front) y in
  swapBuffers zero_gains false b f = ((b, f), None)
  /\ ((o_type back = PanningMatrix -> forall n k, c = CMatrix n k -> n = k) -> swapBuffers zero_gains true b f = ((f, f), None)).
Proof.
  intros V initial z h m kid i c back front x y Cr b f. split; [reflexivity|]. intros Sq.
  pose proof (C85_protocol V initial h m kid i c) as P. rewrite Cr in P. destruct P as (_ & _ & P).
  assert (PB := P back (or_introl eq_refl)). assert (PF := P front (or_intror (or_introl eq_refl))). clear P Cr.
  rewrite PB in PF. injection PF as EF. subst front.
  unfold create in PB. destruct (find i m) as [t|]; [|discriminate].
  assert (T : o_type back = t) by (pose proof (C85_construct V initial t c) as X; rewrite PB in X; apply X).
  assert (Sh : forall v : V, shaped (Object (o_type back) (o_shape back) v)).
  { intros v. unfold shaped. cbn [o_type o_shape o_value]. rewrite T. exists c.
    destruct t, c; cbn in PB; try discriminate PB; injection PB as <-; eexists; split; reflexivity. }
  pose proof (C85_assign V z b f (Sh x) (Sh y)) as A. unfold swapBuffers.
  destruct (assign z b f) as [r [e|]]; [exfalso|destruct A as (-> & _); reflexivity].
  cbn [b f o_type o_shape] in A. destruct A as [(_ & A & _)|[(_ & _ & A & _)|(A & _ & _ & n & k & A2 & A3 & _)]]; try congruence.
  rewrite A in T. subst t. destruct c; cbn in PB; try discriminate PB. injection PB as <-. cbn [o_shape] in A2. injection A2 as <- <-.
  apply A3. exact (Sq eq_refl _ _ eq_refl).
Qed.
Example ex_swap :
  let v x := Object (Vector (RealEl Single)) (VectorShape 4) x in swapBuffers S true (v 1) (v 2) = ((v 2, v 2), None).
Proof. reflexivity. Qed.
(** ... except for a PanningMatrixParameter: copying throws, and leaves the sender with an object of
    other dimensions. *)
Theorem C85_swap_refuted : exists c back front b,
  createProtocol (fun _ _ => 0) ex_ptable ex_table 1 5 c = Done (DoubleBuffering, [back; front])
  /\ swapBuffers S true back front = ((front, b), Some (E InvalidArgument)) /\ o_shape b <> o_shape back.
Proof. exists (CMatrix 2 3). eexists. eexists. eexists. split; [reflexivity|]. split; [reflexivity|]. discriminate. Qed.

(** The set-up of the parameter communication (C78) with these factories.  [kinds], [types] and
    [configs] say which protocol, type and configuration the numbers stand for. *)
Section SetUp.
  Context {V : Type}.
  Variable initial : ptype -> shape -> V.
  Variable kinds types : nat -> N.
  Variable configs : nat -> config.
  Variable h : list pop.
  Variable m : table.
  Definition registered (k : nat) : option bool :=
    option_map (fun e => match e_kind e with MessageQueue => false | _ => true end) (pfind (kinds k) (pafter h)).
  Definition creatable (k t c : nat) : bool :=
    match createProtocol initial (pafter h) m (kinds k) (types t) (configs c) with Done _ => true | Failed _ => false end.
End SetUp.

(** After a successful set-up each connection holds objects of the type of all its receivers, with the
    dimensions that the receivers expect. *)
Theorem C85_setup : forall V (initial : ptype -> shape -> V) kinds types configs h m o pm st,
  (forall a b, config_compare o a b = compare (configs a) (configs b)) ->
  infra_composite o (registered kinds h) (creatable initial kinds types configs h m) pm = Ok st -> n_result st = true ->
  forall i, In i (n_protocols st) ->
  exists k l, createProtocol initial (pafter h) m (kinds (i_kind i)) (types (i_type i)) (configs (i_config i)) = Done (k, l)
    /\ List.length l = copies k
    /\ forall r, In r (i_inputs i) -> kinds (q_protocol o r) = kinds (i_kind i)
         /\ forall x, In x l -> find (types (q_type o r)) m = Some (o_type x)
              /\ (class_of (configs (i_config i)) <> KInterpolation ->
                  create initial m (types (q_type o r)) (configs (q_config o r)) = Done x
                  /\ (o_shape x = NoShape \/ dimensions (configs (q_config o r)) (o_shape x))).
Proof.
  intros V initial kinds types configs h m o pm st CC E R i Hi.
  pose proof (C78_outcome o (registered kinds h) (creatable initial kinds types configs h m) pm) as O. rewrite E in O.
  destruct O as (_ & O). apply O in R as SU. clear O.
  destruct (C78_wiring _ _ _ _ _ E R) as (_ & _ & W & _).
  destruct (W i Hi) as (s & Ps & Ss & _ & K & T & C & I & _). clear W.
  destruct (known _ _ _ _ SU s Ps Ss) as (_ & Cr). rewrite <- K, <- T, <- C in Cr. unfold creatable in Cr.
  pose proof (C85_protocol V initial h m (kinds (i_kind i)) (types (i_type i)) (configs (i_config i))) as P.
  destruct (createProtocol _ _ _ _ _ _) as [[k l]|f]; [|discriminate]. exists k, l. split; [reflexivity|].
  destruct P as (_ & P1 & P2). split; [exact P1|]. intros r Hr. apply I in Hr as [Rr J].
  destruct (fitting _ _ _ _ SU s r Ps Ss Rr J) as (A1 & A2 & A3).
  split; [congruence|]. intros x Hx. assert (Y := P2 x Hx). rewrite <- A2, <- T.
  unfold create in Y |- *. destruct (find (types (i_type i)) m) as [t|]; [|discriminate Y].
  pose proof (C85_construct V initial t (configs (i_config i))) as X. rewrite Y in X. destruct X as (X1 & _ & _ & X2 & X3).
  split; [congruence|]. intros N. rewrite CC, <- C in A3.
  pose proof (C85_compare _ (configs (q_config o r)) N) as Q. rewrite A3 in Q. destruct Q as (_ & Q).
  rewrite <- (proj1 Q eq_refl). split; [exact Y|].
  destruct (needed_config t) eqn:NC; try (right; apply X3; discriminate). left. now apply X2.
Qed.
(* a sender 11 with receivers 21 and 22 *)
Definition setup_objects (configs : nat -> config) (sender receiver : nat) : objects :=
  Objects (fun _ => Input) (fun _ => 1) (fun _ => 0) (fun _ => 0)
    (fun q => if q <? 20 then Output else Input) (fun _ => 1) (fun _ => if sender =? 0 then 3 else 4) (fun q => q / 10)
    (fun q => if q <? 20 then sender else receiver) (fun a b => compare (configs a) (configs b)) (fun c => c =? 0) (fun c => c =? 0).
Definition setup_configs (n : nat) : config := match n with 0 => CVector 4 | 1 => CInterpolation 2 | 2 => CInterpolation 3 | _ => CVector 5 end.
Definition setup_run (sender receiver : nat) :=
  infra_composite (setup_objects setup_configs sender receiver) (registered N.of_nat [PRegister (PEntry 1 "DoubleBuffering" DoubleBuffering)])
    (creatable (fun _ _ => 0) N.of_nat N.of_nat setup_configs [PRegister (PEntry 1 "DoubleBuffering" DoubleBuffering)] ex_table)
    [(21, 11); (22, 11)].
Example ex_setup : setup_run 0 0 = Ok (Infra true [Protocol 1 3 0 true (Some 11) [21; 22]] [] [])
  /\ match setup_run 0 3 with Ok st => n_result st = false | _ => False end.
Proof. vm_compute. repeat split. Qed.
(** For interpolation parameters the dimensions may differ. *)
Theorem C85_setup_refuted : exists o st i r k l x,
  infra_composite o (registered N.of_nat [PRegister (PEntry 1 "DoubleBuffering" DoubleBuffering)])
    (creatable (fun _ _ => 0) N.of_nat N.of_nat setup_configs [PRegister (PEntry 1 "DoubleBuffering" DoubleBuffering)] ex_table)
    [(21, 11); (22, 11)] = Ok st /\ n_result st = true /\ In i (n_protocols st) /\ In r (i_inputs i)
  /\ createProtocol (fun _ _ => 0) (pafter [PRegister (PEntry 1 "DoubleBuffering" DoubleBuffering)]) ex_table
       (N.of_nat (i_kind i)) (N.of_nat (i_type i)) (setup_configs (i_config i)) = Done (k, l) /\ In x l
  /\ setup_configs (q_config o r) = CInterpolation 3 /\ o_shape x = InterpolationShape 2.
Proof.
  exists (setup_objects setup_configs 1 2), (Infra true [Protocol 1 4 1 true (Some 11) [21; 22]] [] []),
    (Protocol 1 4 1 true (Some 11) [21; 22]), 21, DoubleBuffering,
    [Object Interpolation (InterpolationShape 2) 0; Object Interpolation (InterpolationShape 2) 0], (Object Interpolation (InterpolationShape 2) 0).
  repeat split; try (vm_compute; reflexivity); left; reflexivity.
Qed.

Print Assumptions C85_compare.
Print Assumptions C85_interpolation_refuted.
Print Assumptions C85_construct.
Print Assumptions C85_declared.
Print Assumptions C85_declared_refuted.
Print Assumptions C85_protocol.
Print Assumptions C85_assign.
Print Assumptions C85_assign_refuted.
Print Assumptions C85_list_size_refuted.
Print Assumptions C85_swap.
Print Assumptions C85_swap_refuted.
Print Assumptions C85_setup.
Print Assumptions C85_setup_refuted.
