(** Property C69: the interpolating convolver. *)
From Verif Require Import Base Memory Num RampModel RampProofs RingSum ConvolverModel ConvolverProofs
  RoutingProofs MultiConvolverProofs Dft RealDft CrossfadeProofs CrossfadeProps InterpConvModel InterpConvProofs.
From Verif Require F5.
From Coq Require Import Ring Reals Lra QArith Qcanon Sorted.
Local Close Scope R_scope.
Local Close Scope Q_scope.
Local Close Scope Qc_scope.
Local Open Scope nat_scope.
Local Open Scope res_scope.

(** ** Parameters *)
Section Params.
  Context {T : Type}.
  Inductive pcall :=
  | PSetId (id : nat) | PSetIndex (i x : nat) | PSetIndices (l : list nat)
  | PSetWeight (i : nat) (w : T) | PSetWeights (l : list T).
  Definition pcall_step (p : iparam T) (c : pcall) : iparam T * res unit :=
    let settle (r : res (iparam T)) :=
      match r with Ok p' => (p', Ok tt) | Throw e => (p, Throw e) | UB => (p, UB) end in
    match c with
    | PSetId id => (param_set_id p id, Ok tt)
    | PSetIndex i x => settle (param_set_index p i x)
    | PSetIndices l => settle (param_set_indices p l)
    | PSetWeight i w => settle (param_set_weight p i w)
    | PSetWeights l => settle (param_set_weights p l)
    end.
  (** the value the calls should leave at one place *)
  Definition expected_weight (n i : nat) (calls : list pcall) (first : T) : T :=
    fold_left (fun w c => match c with
                          | PSetWeight j x => if j =? i then x else w
                          | PSetWeights l => if length l =? n then nth i l w else w
                          | _ => w
                          end) calls first.
  Definition expected_index (n i : nat) (calls : list pcall) (first : nat) : nat :=
    fold_left (fun w c => match c with
                          | PSetIndex j x => if j =? i then x else w
                          | PSetIndices l => if length l =? n then nth i l w else w
                          | _ => w
                          end) calls first.
End Params.
Arguments pcall T : clear implicits.

Lemma nth_nth_error {A} (l l' : list A) d i : nth_error l i = nth_error l' i -> nth i l d = nth i l' d.
Proof. revert l' i. induction l as [|x l IH]; intros [|y l'] [|i] E; simpl in *; try discriminate; try congruence; auto.
  - symmetry. now apply nth_overflow, nth_error_None.
  - now apply nth_overflow, nth_error_None.
Qed.
Lemma set_nth_nth {A} (l : list A) i x j d : i < length l -> nth j (set_nth l i x) d = if i =? j then x else nth j l d.
Proof.
  intros L. assert (E := set_nth_error l i x j). destruct (Nat.ltb_spec i (length l)); [|lia]. rewrite andb_true_r in E.
  rewrite Nat.eqb_sym. destruct (j =? i).
  - now apply nth_error_nth.
  - now apply nth_nth_error.
Qed.

(** A parameter always has as many indices as weights, whatever is called on it; the
    number never changes; every position holds what the calls put there. *)
Theorem C69_parameters :
  forall {T : Type} (zero : T) (p0 : iparam T) (n : nat),
  (exists invalid id, p0 = param_blank zero invalid id n)
  \/ (exists id indices weights, param_new id indices weights = Ok p0 /\ length weights = n) ->
  forall calls,
  let p := final pcall_step p0 calls in
  length (p_indices p) = n /\ length (p_weights p) = n
  /\ (forall i, i < n -> nth i (p_weights p) zero = expected_weight n i calls (nth i (p_weights p0) zero))
  /\ (forall i, i < n -> nth i (p_indices p) 0 = expected_index n i calls (nth i (p_indices p0) 0))
  /\ Forall (fun r => r <> UB) (outputs pcall_step p0 calls).
Proof.
  intros T zero p0 n H.
  assert (L : length (p_indices p0) = n /\ length (p_weights p0) = n).
  { destruct H as [(iv & id & ->)|(id & ix & ws & E & L)].
    - simpl. now rewrite !repeat_length.
    - unfold param_new in E. destruct (Nat.eqb_spec (length ix) (length ws)); [|discriminate].
      apply Ok_inj in E. subst p0. simpl. split; congruence. }
  clear H. intros calls. cbv zeta. revert p0 L. induction calls as [|c calls IH]; intros p0 [L1 L2].
  - repeat split; auto; constructor.
  - rewrite final_cons, outputs_cons. unfold expected_weight, expected_index. cbn [fold_left].
    assert (G : forall p1 r, pcall_step p0 c = (p1, r) ->
        length (p_indices p1) = n /\ length (p_weights p1) = n /\ r <> UB
        /\ (forall i, i < n -> nth i (p_weights p1) zero
             = match c with PSetWeight j x => if j =? i then x else nth i (p_weights p0) zero
                          | PSetWeights l => if length l =? n then nth i l (nth i (p_weights p0) zero) else nth i (p_weights p0) zero
                          | _ => nth i (p_weights p0) zero end)
        /\ (forall i, i < n -> nth i (p_indices p1) 0
             = match c with PSetIndex j x => if j =? i then x else nth i (p_indices p0) 0
                          | PSetIndices l => if length l =? n then nth i l (nth i (p_indices p0) 0) else nth i (p_indices p0) 0
                          | _ => nth i (p_indices p0) 0 end)).
    { intros p1 r. destruct c as [id|j x|l|j x|l]; cbn [pcall_step].
      - intros E. injection E as E1 E2. subst p1 r. simpl. repeat split; auto; discriminate.
      - unfold param_set_index. destruct (Nat.ltb_spec j (length (p_indices p0))) as [Hj|Hj]; intros E; injection E as E1 E2; subst p1 r; simpl.
        + rewrite set_nth_length. repeat split; auto; [discriminate|]. intros i Hi. now apply set_nth_nth.
        + repeat split; auto; [discriminate|]. intros i Hi. destruct (Nat.eqb_spec j i); [lia|reflexivity].
      - unfold param_set_indices. rewrite L2. destruct (Nat.eqb_spec (length l) n) as [El|El]; cbn [negb]; intros E; injection E as E1 E2; subst p1 r; simpl.
        + repeat split; auto; [discriminate|]. intros i Hi. apply nth_indep. lia.
        + repeat split; auto; discriminate.
      - unfold param_set_weight. destruct (Nat.ltb_spec j (length (p_weights p0))) as [Hj|Hj]; intros E; injection E as E1 E2; subst p1 r; simpl.
        + rewrite set_nth_length. repeat split; auto; [discriminate|]. intros i Hi. now apply set_nth_nth.
        + repeat split; auto; [discriminate|]. intros i Hi. destruct (Nat.eqb_spec j i); [lia|reflexivity].
      - unfold param_set_weights. rewrite L2. destruct (Nat.eqb_spec (length l) n) as [El|El]; cbn [negb]; intros E; injection E as E1 E2; subst p1 r; simpl.
        + repeat split; auto; [discriminate|]. intros i Hi. apply nth_indep. lia.
        + repeat split; auto; discriminate. }
    destruct (pcall_step p0 c) as [p1 r] eqn:E. destruct (G p1 r eq_refl) as (G1 & G2 & G3 & G4 & G5). cbn [fst snd].
    destruct (IH p1 (conj G1 G2)) as (A & B & C & D & F).
    split; [exact A|]. split; [exact B|]. split; [|split].
    + intros i Hi. rewrite (C i Hi). unfold expected_weight. f_equal. now apply G4.
    + intros i Hi. rewrite (D i Hi). unfold expected_index. f_equal. now apply G5.
    + constructor; assumption.
Qed.
Print Assumptions C69_parameters.

(** Construction, the id and the accessors. *)
Theorem C69_parameter_access :
  forall {T : Type} (id : nat) (indices : list nat) (weights : list T),
  (length indices <> length weights -> param_new id indices weights = Throw InvalidArgument)
  /\ (length indices = length weights -> exists p, param_new id indices weights = Ok p
      /\ p_id p = id /\ p_indices p = indices /\ p_weights p = weights)
  /\ forall (p0 : iparam T) calls,
     let p := final pcall_step p0 calls in
     p_id p = fold_left (fun k c => match c with PSetId k' => k' | _ => k end) calls (p_id p0)
     /\ (forall i d, i < length (p_indices p) -> param_index p i = Ok (nth i (p_indices p) d))
     /\ (forall i, length (p_indices p) <= i -> param_index p i = Throw OutOfRange)
     /\ (forall i d, i < length (p_weights p) -> param_weight p i = Ok (nth i (p_weights p) d))
     /\ (forall i, length (p_weights p) <= i -> param_weight p i = Throw OutOfRange).
Proof.
  intros T id ix ws. unfold param_new. split; [|split].
  - intros N. now destruct (Nat.eqb_spec (length ix) (length ws)).
  - intros E. rewrite (proj2 (Nat.eqb_eq _ _) E). cbn [negb]. eexists. split; [reflexivity|]. auto.
  - intros p0 calls. cbv zeta. unfold param_index, param_weight. split; [|split; [|split; [|split]]].
    + revert p0. induction calls as [|c calls IH]; intros p0; [reflexivity|]. rewrite final_cons, IH. cbn [fold_left].
      f_equal. destruct c as [k|i x|l|i x|l]; cbn [pcall_step fst]; [reflexivity|..];
        unfold param_set_index, param_set_indices, param_set_weight, param_set_weights;
        match goal with |- context [if ?b then _ else _] => destruct b end; reflexivity.
    + intros i d H. now rewrite (nth_error_nth' _ d H).
    + intros i H. now rewrite (proj2 (nth_error_None _ _) H).
    + intros i d H. now rewrite (nth_error_nth' _ d H).
    + intros i H. now rewrite (proj2 (nth_error_None _ _) H).
Qed.
Print Assumptions C69_parameter_access.

(** A set of interpolants holds, in ascending order, one parameter per id: the first that
    was given. *)
Theorem C69_parameter_set :
  forall {T : Type} (l : list (iparam T)),
  StronglySorted (fun p q => p_id p < p_id q) (pset_of l)
  /\ forall id, find (fun p => p_id p =? id) (pset_of l) = find (fun p => p_id p =? id) l.
Proof.
  intros T l. unfold pset_of.
  assert (G : forall s, StronglySorted (fun p q : iparam T => p_id p < p_id q) s ->
     StronglySorted (fun p q => p_id p < p_id q) (fold_left (fun s p => pset_insert p s) l s)
     /\ forall id, find (fun p => p_id p =? id) (fold_left (fun s p => pset_insert p s) l s)
          = match find (fun p => p_id p =? id) s with Some p => Some p | None => find (fun p => p_id p =? id) l end).
  { induction l as [|p l IH]; intros s Sc; cbn [fold_left].
    - split; [exact Sc|]. intros id. now destruct (find _ s).
    - assert (I : StronglySorted (fun p q : iparam T => p_id p < p_id q) (pset_insert p s)
        /\ (forall q, In q (pset_insert p s) -> q = p \/ In q s)
        /\ forall id, find (fun p => p_id p =? id) (pset_insert p s)
             = match find (fun p => p_id p =? id) s with Some q => Some q | None => if p_id p =? id then Some p else None end).
      { clear IH l. induction Sc as [|q s Sc IHs Hq]; cbn [pset_insert].
        - split; [constructor; constructor|]. split; [intros q [->|[]]; auto|]. intros id. simpl. now destruct (p_id p =? id).
        - destruct (Nat.ltb_spec (p_id p) (p_id q)) as [H|H]; [|destruct (Nat.ltb_spec (p_id q) (p_id p)) as [H1|H1]].
          + split; [|split].
            * constructor; [now constructor|]. constructor; [exact H|]. eapply Forall_impl; [|exact Hq]. simpl. intros; lia.
            * intros x [->|Hx]; auto.
            * intros id. cbn [find]. destruct (Nat.eqb_spec (p_id p) id) as [E|E].
              -- destruct (Nat.eqb_spec (p_id q) id); [lia|].
                 assert (F : find (fun p => p_id p =? id) s = None); [|now rewrite F].
                 { destruct (find (fun p => p_id p =? id) s) as [x|] eqn:F; [|reflexivity].
                   apply find_some in F as [F1 F2]. rewrite Forall_forall in Hq. specialize (Hq x F1). apply Nat.eqb_eq in F2. lia. }
              -- destruct (p_id q =? id); [reflexivity|]. now destruct (find _ s).
          + destruct IHs as (A & B & C). split; [|split].
            * constructor; [exact A|]. apply Forall_forall. intros x Hx. destruct (B x Hx) as [->|Hx']; [exact H1|].
              rewrite Forall_forall in Hq. now apply Hq.
            * intros x [->|Hx]; [now right; left|]. destruct (B x Hx); [now left|now right; right].
            * intros id. cbn [find]. destruct (p_id q =? id); [reflexivity|apply C].
          + split; [now constructor|]. split; [intros x Hx; now right|].
            intros id. cbn [find]. destruct (Nat.eqb_spec (p_id q) id) as [E|E]; [reflexivity|].
            destruct (find _ s); [reflexivity|]. destruct (Nat.eqb_spec (p_id p) id); [lia|reflexivity]. }
      destruct I as (I1 & _ & I3). destruct (IH (pset_insert p s) I1) as [A B]. split; [exact A|].
      intros id. rewrite B, I3. cbn [find]. destruct (find _ s) as [q|]; [reflexivity|]. now destruct (p_id p =? id). }
  destruct (G [] (SSorted_nil _)) as [A B]. split; [exact A|]. intros id. now rewrite B.
Qed.
Print Assumptions C69_parameter_set.
Example C69_parameter_example :
  pset_of [MkParam 3 [0] [1]; MkParam 1 [4] [2]; MkParam 3 [7] [5]] = [MkParam 1 [4] [2]; MkParam 3 [0] [1]]
  /\ let p := final pcall_step (MkParam 3 [0; 1] [1; 2]) [PSetIndex 1 9; PSetWeights [5]; PSetWeights [6; 7]] in
     p_indices p = [0; 9] /\ p_weights p = [6; 7].
Proof. split; [|split]; reflexivity. Qed.

(** ** The convolver *)
(** Constructor and every history of calls give exactly the exceptions, returns and output
    blocks of the specification [ispec_step]: a bank of impulse responses; each interpolant
    stands for the impulse response whose taps are the weighted sums of the taps of the
    selected filters at the time it was set; the outputs are the crossfades (C26) between
    the interpolated filters. *)
Theorem C69_refines :
  forall {T : Type} (rO rI : T) (radd rmul rsub : T -> T -> T) (ropp : T -> T),
  ring_theory rO rI radd rmul rsub ropp eq ->
  forall {K : Type} (kzero : K) (kadd kmul : K -> K -> K) (inj : T -> K)
         (fwd : list T -> list K) (inv : list K -> list T) (dsize : nat -> nat)
         (b : nat) (cst scale : T),
  transform_ok rO radd rmul kzero kadd kmul inj fwd inv dsize b cst ->
  spectral_ok kadd kmul inj ->
  rmul scale cst = rI ->
  forall ni no maxr maxf num maxlen transition up down alignment routings initial rows cols ops,
  length up = transition -> length down = transition -> 0 < b -> 0 < maxlen -> 0 < num ->
  Forall (fun x => r_filter x < maxr) routings -> Forall (param_ok maxr maxf) initial ->
  Forall (fun r => length r = cols) rows ->
  Forall (iop_ok ni maxr maxf b) ops ->
  match ispec_new rO rI radd rmul (K := K) ni no maxr maxf num maxlen b transition up down routings initial rows cols with
  | Ok t => exists s,
      interp_new rO rI rmul kzero kadd kmul inj fwd dsize up down ni no b maxlen maxr maxf num transition
        alignment scale routings initial rows cols = Ok s
      /\ outputs (interp_step rO radd rmul kzero kadd kmul inj fwd inv dsize) s ops
         = outputs (ispec_step rO rI radd rmul (K := K) ni no maxr maxf num maxlen b up down) t ops
  | Throw e =>
      interp_new rO rI rmul kzero kadd kmul inj fwd dsize up down ni no b maxlen maxr maxf num transition
        alignment scale routings initial rows cols = Throw e
  | UB => False
  end.
Proof.
  intros T rO rI radd rmul rsub ropp RT K kzero kadd kmul inj fwd inv dsize b cst scale TO SP Es
    ni no maxr maxf num maxlen transition up down al routings initial rows cols ops Lu Ld Hb Hm Hn Wr Wi Wf Wo.
  assert (X := interp_new_rel rO rI radd rmul rsub ropp RT kzero kadd kmul inj fwd inv dsize ni no maxr maxf num maxlen b
              transition up down cst TO SP Lu Ld Hb Hn al scale routings initial rows cols Hm Es Wr Wi Wf).
  destruct (ispec_new _ _ _ _ _ _ _ _ _ _ _ _ _ _ _ _ _ _) as [t|e|]; [|exact X|exact X].
  destruct X as (s & E & R). exists s. split; [exact E|].
  now apply (irun_rel rO rI radd rmul rsub ropp RT kzero kadd kmul inj fwd inv dsize ni no maxr maxf num maxlen b
              transition up down cst TO SP Lu Ld Hb Hn ops s t R).
Qed.
Print Assumptions C69_refines.

Section Spec.
  Context {T : Type} (rO rI : T) (radd rmul : T -> T -> T) {K : Type}.
  Variables (ni no maxr maxf num maxlen b : nat) (up down : list T).
  Local Notation step := (ispec_step rO rI radd rmul (K := K) ni no maxr maxf num maxlen b up down).
  Local Notation iop := (iop (T := T)).

  (** calls that do not concern the interpolant [id] *)
  Definition ileaves (id : nat) (o : iop) : Prop :=
    match o with
    | ISetInterpolant p _ => p_id p <> id
    | ISetInterpolants l _ => Forall (fun p => p_id p <> id) l
    | IClearFilters | IClearInterpolants => False
    | _ => True
    end.
  Definition ireceived (i : nat) (ops : list iop) : list T :=
    concat (map (fun op => match op with IProcess input => nth i input [] | _ => [] end) ops).
  Definition iprocessed (ops : list iop) : nat :=
    length (filter (fun op => match op with IProcess _ => true | _ => false end) ops).

  Definition keeps id (t t' : ispec (T := T)) : Prop :=
    xs_new (is_x t') id = xs_new (is_x t) id /\ xs_old (is_x t') id = xs_old (is_x t) id
    /\ xs_age (is_x t') id = xs_age (is_x t) id /\ forall i, xs_signal (is_x t') i = xs_signal (is_x t) i.
  Lemma keeps_interpolant t p start id t' : spec_interpolant rO radd rmul maxf num maxlen t p start = Ok t' ->
    (forall i, xs_signal (is_x t') i = xs_signal (is_x t) i) /\ (p_id p <> id -> keeps id t t').
  Proof.
    unfold spec_interpolant. destruct (_ <=? _); [discriminate|]. destruct (negb _); [discriminate|].
    destruct (existsb _ _); [discriminate|]. intros E. apply Ok_inj in E. subst t'. split; [reflexivity|].
    intros N. unfold keeps, set_x, change. cbn. destruct (Nat.eqb_spec id (p_id p)); [congruence|]. auto.
  Qed.
  Lemma keeps_interpolants start id l : forall t,
    (forall i, xs_signal (is_x (snd (spec_interpolants rO radd rmul maxf num maxlen t l start))) i = xs_signal (is_x t) i)
    /\ (Forall (fun p => p_id p <> id) l -> keeps id t (snd (spec_interpolants rO radd rmul maxf num maxlen t l start))).
  Proof.
    induction l as [|p l IH]; intros t; cbn [spec_interpolants].
    - split; [reflexivity|]. intros _. repeat split.
    - destruct (spec_interpolant rO radd rmul maxf num maxlen t p start) as [t'|e|] eqn:E.
      + destruct (keeps_interpolant _ _ _ id _ E) as [A B]. destruct (IH t') as [C D]. split.
        * intros i. rewrite C. apply A.
        * intros F. assert (F1 := Forall_inv F). assert (F2 := Forall_inv_tail F).
          destruct (B F1) as (B1 & B2 & B3 & B4), (D F2) as (D1 & D2 & D3 & D4).
          unfold keeps. rewrite D1, D2, D3, B1, B2, B3. split; [reflexivity|]. split; [reflexivity|]. split; [reflexivity|].
          intros i. now rewrite D4, B4.
      + split; [reflexivity|]. intros _. repeat split.
      + split; [reflexivity|]. intros _. repeat split.
  Qed.
  Lemma ispec_signal ops : forall t i, xs_signal (is_x (final step t ops)) i = xs_signal (is_x t) i ++ ireceived i ops.
  Proof.
    induction ops as [|o ops IH]; intros t i; [unfold ireceived; simpl; now rewrite app_nil_r|].
    rewrite final_cons, IH. unfold ireceived. cbn [map concat]. rewrite app_assoc. f_equal.
    destruct o as [x|i' o'|l|ir idx|rows cols| |p start|l start| |input]; cbn [ispec_step as_cross xspec_step]; rewrite ?app_nil_r.
    - destruct (fset_entry _ _ _ _ _ _); reflexivity.
    - reflexivity.
    - destruct (if maxf <? length l then _ else _). reflexivity.
    - destruct (_ && _); reflexivity.
    - destruct (_ && _); reflexivity.
    - reflexivity.
    - destruct (spec_interpolant rO radd rmul maxf num maxlen t p start) as [t'|e|] eqn:E; [|reflexivity|reflexivity].
      exact (proj1 (keeps_interpolant _ _ _ 0 _ E) i).
    - destruct (keeps_interpolants start 0 l t) as [A _]. destruct (spec_interpolants _ _ _ _ _ _ _ _ _). apply A.
    - reflexivity.
    - reflexivity.
  Qed.
  Lemma ispec_leaves ops : forall t id, Forall (ileaves id) ops ->
    xs_new (is_x (final step t ops)) id = xs_new (is_x t) id /\ xs_old (is_x (final step t ops)) id = xs_old (is_x t) id
    /\ xs_age (is_x (final step t ops)) id = iprocessed ops + xs_age (is_x t) id.
  Proof.
    induction ops as [|o ops IH]; intros t id F; [auto|].
    assert (F1 := Forall_inv F). assert (F2 := Forall_inv_tail F). rewrite final_cons.
    destruct (IH (fst (step t o)) id F2) as (-> & -> & ->). clear IH. unfold iprocessed. cbn [filter].
    destruct o as [x|i' o'|l|ir idx|rows cols| |p start|l start| |input]; cbn [ispec_step as_cross xspec_step ileaves] in *.
    - destruct (fset_entry _ _ _ _ _ _); auto.
    - auto.
    - destruct (if maxf <? length l then _ else _). auto.
    - destruct (_ && _); auto.
    - destruct (_ && _); auto.
    - destruct F1.
    - destruct (spec_interpolant rO radd rmul maxf num maxlen t p start) as [t'|e|] eqn:E; [|auto|auto].
      destruct (proj2 (keeps_interpolant _ _ _ id _ E) F1) as (A & B & C & _). cbn [fst]. rewrite A, B, C. auto.
    - destruct (proj2 (keeps_interpolants start id l t) F1) as (A & B & C & _).
      destruct (spec_interpolants _ _ _ _ _ _ _ _ _). cbn [fst snd] in *. rewrite A, B, C. auto.
    - destruct F1.
    - cbn [fst set_x is_x xs_new xs_old xs_age length]. split; [reflexivity|]. split; [reflexivity|lia].
  Qed.
End Spec.

(** An interpolant, end to end.  After any history [ops1] the interpolant [p] is set with a
    transition; then anything may happen ([ops2], including changes of the filters of the
    bank) that does not concern this interpolant.  An output fed by one routing entry that
    uses this interpolant receives, in the following block, the mix of
    - sum_j weight_j * ( bank filter index_j convolved with the input ), with the filters
      that were in the bank when the interpolant was set, and
    - the filter this interpolant stood for before,
    with the weights of the crossfade ramps. *)
Theorem C69_transition :
  forall {T : Type} (rO rI : T) (radd rmul rsub : T -> T -> T) (ropp : T -> T),
  ring_theory rO rI radd rmul rsub ropp eq ->
  forall {K : Type} (kzero : K) (kadd kmul : K -> K -> K) (inj : T -> K)
         (fwd : list T -> list K) (inv : list K -> list T) (dsize : nat -> nat)
         (b : nat) (cst scale : T),
  transform_ok rO radd rmul kzero kadd kmul inj fwd inv dsize b cst ->
  spectral_ok kadd kmul inj ->
  rmul scale cst = rI ->
  forall ni no maxr maxf num maxlen transition up down alignment routings initial rows cols,
  length up = transition -> length down = transition -> 0 < b -> 0 < maxlen -> 0 < num ->
  Forall (fun x => r_filter x < maxr) routings -> Forall (param_ok maxr maxf) initial ->
  Forall (fun r => length r = cols) rows ->
  forall s t0 ops1 p ops2 input r y,
  let step := interp_step rO radd rmul kzero kadd kmul inj fwd inv dsize in
  let ops := ops1 ++ ISetInterpolant p true :: ops2 in
  Forall (iop_ok ni maxr maxf b) (ops ++ [IProcess input]) ->
  interp_new rO rI rmul kzero kadd kmul inj fwd dsize up down ni no b maxlen maxr maxf num transition
    alignment scale routings initial rows cols = Ok s ->
  ispec_new rO rI radd rmul (K := K) ni no maxr maxf num maxlen b transition up down routings initial rows cols = Ok t0 ->
  (* the parameter is accepted *)
  interpolant_message_ok maxr maxf num p ->
  Forall (ileaves (p_id p)) ops2 ->
  let s' := final step s ops in
  snd (step s' (IProcess input)) = y ->
  filter (fun e => r_out e =? r_out r) (x_table (i_x s')) = [r] -> r_filter r = p_id p ->
  let t1 := final (ispec_step rO rI radd rmul (K := K) ni no maxr maxf num maxlen b up down) t0 ops1 in
  exists z, y = IAudio (Ok z) /\ exists z', nth_error z (r_out r) = Some z' /\ length z' = b
  /\ forall k, k < b ->
     let n := iprocessed ops2 * b + k in
     let signal := ireceived (r_in r) (ops ++ [IProcess input]) in
     let sample h := conv rO radd rmul h signal (length signal - b + k) in
     nth k z' rO
     = radd (rmul (nth n up rI)
               (rmul (r_gain r) (sum rO radd num (fun j =>
                  rmul (nth j (p_weights p) rO) (sample (is_bank t1 (nth j (p_indices p) 0)))))))
            (rmul (nth n down rO) (rmul (r_gain r) (sample (xs_new (is_x t1) (p_id p))))).
Proof.
  intros T rO rI radd rmul rsub ropp RT K kzero kadd kmul inj fwd inv dsize b cst scale TO SP Es
    ni no maxr maxf num maxlen transition up down al routings initial rows cols Lu Ld Hb Hm Hn Wr Wi Wf
    s t0 ops1 p ops2 input r y step ops W Es' Et W1p F2 s' Ey Ft Ei t1.
  assert (X := interp_new_rel rO rI radd rmul rsub ropp RT kzero kadd kmul inj fwd inv dsize ni no maxr maxf num maxlen b
              transition up down cst TO SP Lu Ld Hb Hn al scale routings initial rows cols Hm Es Wr Wi Wf).
  rewrite Et in X. destruct X as (s0 & E & R). assert (s0 = s) by congruence. subst s0. clear E Es'.
  apply Forall_app in W as [W1 W2]. apply Forall_inv in W2.
  set (sstep := ispec_step rO rI radd rmul (K := K) ni no maxr maxf num maxlen b up down) in *.
  assert (Run := fun ops s t => irun_rel rO rI radd rmul rsub ropp RT kzero kadd kmul inj fwd inv dsize ni no maxr maxf num maxlen b
              transition up down cst TO SP Lu Ld Hb Hn ops s t).
  fold sstep in Run. fold step in Run.
  destruct (Run ops s t0 R W1) as [_ R']. fold s' in R'.
  set (t := final sstep t0 ops) in *.
  unfold ops in W1. apply Forall_app in W1 as [W1a W1b].
  destruct (Run ops1 s t0 R W1a) as [_ R1]. fold t1 in R1.
  destruct (istep_rel rO rI radd rmul rsub ropp RT kzero kadd kmul inj fwd inv dsize ni no maxr maxf num maxlen b
              transition up down cst TO SP Lu Ld Hb Hn s' t (IProcess input) R' W2) as [_ E].
  fold step in E. rewrite Ey in E. cbn [ispec_step as_cross xspec_step snd as_ievent] in E.
  eexists. split; [exact E|].
  destruct R' as [Rx _ _ _ _].
  destruct (y_table _ _ _ _ _ _ _ _ _ _ _ _ _ _ _ _ _ _ _ _ Rx) as (Vt & _ & _ & Mt).
  assert (Hr : In r (x_table (i_x s'))).
  { assert (In r (filter (fun e => r_out e =? r_out r) (x_table (i_x s')))) as H by (rewrite Ft; now left).
    now apply filter_In in H. }
  destruct (proj2 Vt r Hr) as [Hi Ho].
  eexists. split.
  { unfold xspec_block. rewrite nth_error_map, (nth_error_nth' _ 0) by (now rewrite seq_length).
    rewrite seq_nth by exact Ho. cbn [option_map Nat.add]. reflexivity. }
  split; [now rewrite map_length, seq_length|]. intros k Hk n signal sample.
  rewrite map_seq_nth by exact Hk. unfold xspec_sample. cbn [xs_map].
  rewrite (sum_ext rO radd ni _ (fun i => match table_map (x_table (i_x s')) i (r_out r) with
     | Some (f, g) => faded rO rI radd rmul b up down (MkXSpec (xs_map (is_x t)) (xs_new (is_x t)) (xs_old (is_x t)) (xs_age (is_x t)) (fun i => xs_signal (is_x t) i ++ nth i input [])) k i f g
     | None => rO end)) by (intros i _; now rewrite Mt).
  rewrite <- (table_sum_map rO rI radd rmul rsub ropp RT ni no _ _ _ Vt).
  rewrite (table_sum_one rO rI radd rmul rsub ropp RT _ _ _ r Ft), Ei.
  unfold faded. cbn [xs_signal xs_new xs_old xs_age].
  assert (S0 : forall i, xs_signal (is_x t0) i = []).
  { intros i. unfold ispec_new in Et.
    destruct (ispec_step _ _ _ _ _ _ _ _ _ _ _ _ _ _ (IInitRoutings routings)) as [ta [[[]|e|]|]] eqn:Ea; try discriminate.
    destruct (ispec_step _ _ _ _ _ _ _ _ _ _ _ _ _ ta _) as [tb [[[]|e|]|]] eqn:Eb; try discriminate.
    destruct (ispec_step _ _ _ _ _ _ _ _ _ _ _ _ _ tb _) as [tc [[[]|e|]|]] eqn:Ec; try discriminate.
    apply Ok_inj in Et. subst tc.
    assert (Q := ispec_signal rO rI radd rmul (K := K) ni no maxr maxf num maxlen b up down
       [IInitRoutings routings; IInitFilters rows cols; ISetInterpolants initial false] (ispec_empty b transition) i).
    rewrite !final_cons, Ea in Q. cbn [fst] in Q. rewrite Eb in Q. cbn [fst] in Q. rewrite Ec in Q. exact Q. }
  assert (Sg : xs_signal (is_x t) (r_in r) ++ nth (r_in r) input [] = signal).
  { unfold signal, t, sstep. rewrite ispec_signal, S0. cbn [app].
    unfold ireceived. rewrite (map_app _ ops), concat_app. cbn [map concat]. now rewrite app_nil_r. }
  rewrite Sg.
  assert (Et' : t = final sstep (fst (sstep t1 (ISetInterpolant p true))) ops2).
  { unfold t, ops. now rewrite final_app, final_cons. }
  destruct (ispec_leaves rO rI radd rmul (K := K) ni no maxr maxf num maxlen b up down ops2
              (fst (sstep t1 (ISetInterpolant p true))) (p_id p) F2) as (N1 & N2 & N3).
  fold sstep in N1, N2, N3. rewrite <- Et' in N1, N2, N3. rewrite N1, N2, N3.
  assert (Ec : fst (sstep t1 (ISetInterpolant p true))
       = set_x t1 (change (is_x t1) (interpolate rO radd rmul maxlen (is_bank t1) p) (p_id p) true)).
  { unfold sstep at 1. cbn [ispec_step]. unfold spec_interpolant. destruct W1p as (P1 & P2 & P3 & P4 & P5).
    destruct (Nat.leb_spec maxf (p_id p)); [lia|]. rewrite P3, Nat.eqb_refl. cbn [negb].
    assert (Ex : existsb (fun i => maxf <=? i) (p_indices p) = false); [|now rewrite Ex].
    { apply not_true_is_false. intros Q. apply existsb_exists in Q as (i & Q1 & Q2).
      rewrite Forall_forall in P5. specialize (P5 i Q1). rewrite Nat.leb_le in Q2. lia. } }
  rewrite Ec. cbn [set_x is_x change xs_new xs_old xs_age]. rewrite Nat.eqb_refl. cbn [andb].
  rewrite (conv_interpolate rO rI radd rmul rsub ropp RT num maxlen b transition up down Lu Ld Hb Hn)
    by (destruct R1; assumption).
  destruct W1p as (_ & _ & P3 & _). rewrite P3. unfold weight_new, weight_old. rewrite Nat.add_0_r. reflexivity.
Qed.
Print Assumptions C69_transition.

Definition no_interpolant {T} (o : iop (T := T)) : Prop :=
  match o with ISetInterpolant _ _ | ISetInterpolants _ _ => False | _ => True end.
Lemma spec_same {T K} (rO rI : T) radd rmul ni no maxr maxf num maxlen b up down ops :
  let step := ispec_step rO rI radd rmul (K := K) ni no maxr maxf num maxlen b up down in
  Forall no_interpolant ops -> forall t t', is_x t = is_x t' -> outputs step t ops = outputs step t' ops.
Proof.
  intros step N. induction ops as [|o ops IH]; intros t t' Sm; [reflexivity|]. rewrite !outputs_cons.
  assert (N1 := Forall_inv N). assert (N2 := Forall_inv_tail N).
  assert (G : snd (step t o) = snd (step t' o) /\ is_x (fst (step t o)) = is_x (fst (step t' o))).
  { unfold step. destruct o as [x|i' o'|l|ir' idx'|rows' cols'| |p start|l start| |input]; cbn [ispec_step as_cross];
      rewrite ?Sm; try (destruct (_ && _); auto; fail); try (destruct N1; fail);
      try (destruct (xspec_step _ _ _ _ _ _ _ _ _ _ _ _ _ _); auto; fail); auto. 
  }
  destruct G as [G1 G2]. rewrite G1. f_equal. now apply IH.
Qed.
(** Changing a filter of the bank is inaudible: until the next interpolant is set, all
    returns and all output blocks are those without the change. *)
Theorem C69_bank_latent :
  forall {T : Type} (rO rI : T) (radd rmul rsub : T -> T -> T) (ropp : T -> T),
  ring_theory rO rI radd rmul rsub ropp eq ->
  forall {K : Type} (kzero : K) (kadd kmul : K -> K -> K) (inj : T -> K)
         (fwd : list T -> list K) (inv : list K -> list T) (dsize : nat -> nat)
         (b : nat) (cst scale : T),
  transform_ok rO radd rmul kzero kadd kmul inj fwd inv dsize b cst ->
  spectral_ok kadd kmul inj ->
  rmul scale cst = rI ->
  forall ni no maxr maxf num maxlen transition up down alignment routings initial rows cols,
  length up = transition -> length down = transition -> 0 < b -> 0 < maxlen -> 0 < num ->
  Forall (fun x => r_filter x < maxr) routings -> Forall (param_ok maxr maxf) initial ->
  Forall (fun r => length r = cols) rows ->
  forall s ops1 ir idx ops2,
  let step := interp_step rO radd rmul kzero kadd kmul inj fwd inv dsize in
  Forall (iop_ok ni maxr maxf b) ops1 -> Forall (iop_ok ni maxr maxf b) ops2 -> Forall no_interpolant ops2 ->
  interp_new rO rI rmul kzero kadd kmul inj fwd dsize up down ni no b maxlen maxr maxf num transition
    alignment scale routings initial rows cols = Ok s ->
  outputs step (final step s (ops1 ++ [ISetIr ir idx])) ops2 = outputs step (final step s ops1) ops2.
Proof.
  intros T rO rI radd rmul rsub ropp RT K kzero kadd kmul inj fwd inv dsize b cst scale TO SP Es
    ni no maxr maxf num maxlen transition up down al routings initial rows cols Lu Ld Hb Hm Hn Wr Wi Wf
    s ops1 ir idx ops2 step W1 W2 N Es'.
  assert (X := interp_new_rel rO rI radd rmul rsub ropp RT kzero kadd kmul inj fwd inv dsize ni no maxr maxf num maxlen b
              transition up down cst TO SP Lu Ld Hb Hn al scale routings initial rows cols Hm Es Wr Wi Wf).
  destruct (ispec_new _ _ _ _ _ _ _ _ _ _ _ _ _ _ _ _ _ _) as [t0|e|]; [|congruence|destruct X].
  destruct X as (s0 & E & R). assert (s0 = s) by congruence. subst s0. clear E Es'.
  set (sstep := ispec_step rO rI radd rmul (K := K) ni no maxr maxf num maxlen b up down) in *.
  assert (Run := fun ops s t => irun_rel rO rI radd rmul rsub ropp RT kzero kadd kmul inj fwd inv dsize ni no maxr maxf num maxlen b
              transition up down cst TO SP Lu Ld Hb Hn ops s t).
  fold sstep in Run. fold step in Run.
  destruct (Run ops1 s t0 R W1) as [_ R1].
  assert (W3 : Forall (iop_ok ni maxr maxf b) (ops1 ++ [ISetIr ir idx])).
  { apply Forall_app. split; [exact W1|]. constructor; [exact I|constructor]. }
  destruct (Run (ops1 ++ [ISetIr ir idx]) s t0 R W3) as [_ R3].
  destruct (Run ops2 _ _ R1 W2) as [E1 _]. destruct (Run ops2 _ _ R3 W2) as [E3 _]. rewrite E1, E3.
  rewrite final_app, final_cons. change (final sstep ?x []) with x.
  set (t1 := final sstep t0 ops1).
  assert (Same : is_x (fst (sstep t1 (ISetIr ir idx))) = is_x t1).
  { unfold sstep. cbn [ispec_step]. destruct (_ && _); reflexivity. }
  unfold sstep. now apply spec_same.
Qed.
Print Assumptions C69_bank_latent.

(** Over the reals, with the half-spectrum DFT and the ramps of the constructor: the output
    is w * sum_j weight_j (h_j convolved with x) + (1 - w) * (previous filter convolved with
    x), w = min (1, (n+1) / transition), and from sample transition - 1 of the transition
    onwards exactly the weighted sum. *)
Lemma complex_spectral : spectral_ok Cadd Cmul Cinj.
Proof.
  constructor.
  - intros [x1 x2] [a1 a2] [c1 c2]. unfold Cmul, Cadd. cbn [fst snd]. f_equal; ring.
  - intros w [x1 x2] [a1 a2]. unfold Cmul, Cinj. cbn [fst snd]. f_equal; ring.
Qed.
Theorem C69_real :
  forall b ni no maxr maxf num maxlen transition alignment routings initial rows cols,
  0 < b -> 0 < maxlen -> 0 < num ->
  Forall (fun x => r_filter x < maxr) routings -> Forall (param_ok maxr maxf) initial ->
  Forall (fun r : list R => length r = cols) rows ->
  forall s t0 ops1 p ops2 input r y,
  let step := interp_step 0%R Rplus Rmult C0 Cadd Cmul Cinj (rfft b) (irfft b) (fun b => b + 1) in
  let ops := ops1 ++ ISetInterpolant p true :: ops2 in
  Forall (iop_ok ni maxr maxf b) (ops ++ [IProcess input]) ->
  interp_new 0%R 1%R Rmult C0 Cadd Cmul Cinj (rfft b) (fun b => b + 1) (fade_in transition) (fade_out transition)
    ni no b maxlen maxr maxf num transition alignment (/ INR (2 * b))%R routings initial rows cols = Ok s ->
  ispec_new 0%R 1%R Rplus Rmult (K := RealDft.C) ni no maxr maxf num maxlen b transition (fade_in transition) (fade_out transition)
    routings initial rows cols = Ok t0 ->
  interpolant_message_ok maxr maxf num p -> Forall (ileaves (p_id p)) ops2 ->
  let s' := final step s ops in
  snd (step s' (IProcess input)) = y ->
  filter (fun e => r_out e =? r_out r) (x_table (i_x s')) = [r] -> r_filter r = p_id p ->
  let t1 := final (ispec_step 0%R 1%R Rplus Rmult (K := RealDft.C) ni no maxr maxf num maxlen b (fade_in transition) (fade_out transition)) t0 ops1 in
  exists z, y = IAudio (Ok z) /\ exists z', nth_error z (r_out r) = Some z' /\ length z' = b
  /\ forall k, k < b ->
     let n := iprocessed ops2 * b + k in
     let signal := ireceived (r_in r) (ops ++ [IProcess input]) in
     let sample h := conv 0%R Rplus Rmult h signal (length signal - b + k) in
     let target := sum 0%R Rplus num (fun j => (nth j (p_weights p) 0 * sample (is_bank t1 (nth j (p_indices p) O)))%R) in
     nth k z' 0%R
     = (weight transition n * (r_gain r * target)
        + (1 - weight transition n) * (r_gain r * sample (xs_new (is_x t1) (p_id p))))%R
     /\ (transition <= n + 1 -> nth k z' 0%R = (r_gain r * target)%R).
Proof.
  intros b ni no maxr maxf num maxlen transition al routings initial rows cols Hb Hm Hn Wr Wi Wf
    s t0 ops1 p ops2 input r y step ops W Es Et Wp F2 s' Ey Ft Ei t1.
  destruct (C26_weights transition) as (Lu & Ld & _).
  assert (Lu' : length (fade_in transition) = transition) by (unfold fade_in; now rewrite map_length).
  assert (Ld' : length (fade_out transition) = transition) by (unfold fade_out; now rewrite map_length).
  assert (Ei' : (/ INR (2 * b) * INR (2 * b))%R = 1%R) by (apply Rinv_l, not_0_INR; lia).
  destruct (C69_transition 0%R 1%R Rplus Rmult Rminus Ropp RTheory C0 Cadd Cmul Cinj (rfft b) (irfft b) (fun b => b + 1) b (INR (2 * b))
    (/ INR (2 * b))%R (rfft_transform_ok b Hb) complex_spectral Ei' ni no maxr maxf num maxlen transition (fade_in transition) (fade_out transition) al
    routings initial rows cols Lu' Ld' Hb Hm Hn Wr Wi Wf s t0 ops1 p ops2 input r y W Es Et Wp F2 Ey Ft Ei)
    as (z & E & z' & E' & L & N).
  exists z. split; [exact E|]. exists z'. split; [exact E'|]. split; [exact L|].
  intros k Hk n signal sample target. specialize (N k Hk). cbv zeta in N.
  fold ops in N. fold signal in N. fold n in N. fold t1 in N.
  destruct (fade_weights transition n) as [Wu Wd]. rewrite Wu, Wd in N.
  change (sum 0%R Rplus num _) with target in N.
  split; [exact N|].
  intros H. rewrite N. replace (weight transition n) with 1%R; [unfold target; ring|].
  unfold weight. destruct (Nat.ltb_spec n transition) as [H1|H1]; [|reflexivity].
  replace (n + 1) with transition by lia. symmetry. apply Rinv_r, not_0_INR. lia.
Qed.
Print Assumptions C69_real.

(** ** The component *)
(** With messages the convolver accepts, one process() call of the component handles the
    filter messages in order, then the interpolant messages in order (each starting a
    transition), then computes the block. *)
Theorem C69_component :
  forall {T : Type} (rO rI : T) (radd rmul rsub : T -> T -> T) (ropp : T -> T),
  ring_theory rO rI radd rmul rsub ropp eq ->
  forall {K : Type} (kzero : K) (kadd kmul : K -> K -> K) (inj : T -> K)
         (fwd : list T -> list K) (inv : list K -> list T) (dsize : nat -> nat)
         (b : nat) (cst scale : T),
  transform_ok rO radd rmul kzero kadd kmul inj fwd inv dsize b cst ->
  spectral_ok kadd kmul inj ->
  rmul scale cst = rI ->
  forall ni no maxr maxf num maxlen transition up down alignment routings initial rows cols,
  length up = transition -> length down = transition -> 0 < b -> 0 < maxlen -> 0 < num ->
  Forall (fun x => r_filter x < maxr) routings -> Forall (param_ok maxr maxf) initial ->
  Forall (fun r => length r = cols) rows ->
  forall s t0 (calls : list (list (nat * list T) * list (iparam T) * list (list T))) fuel,
  interp_new rO rI rmul kzero kadd kmul inj fwd dsize up down ni no b maxlen maxr maxf num transition
    alignment scale routings initial rows cols = Ok s ->
  ispec_new rO rI radd rmul (K := K) ni no maxr maxf num maxlen b transition up down routings initial rows cols = Ok t0 ->
  Forall (fun c => Forall (filter_message_ok maxf maxlen) (fst (fst c))
                   /\ Forall (interpolant_message_ok maxr maxf num) (snd (fst c))
                   /\ length (snd c) = ni /\ Forall (fun x => length x = b) (snd c)
                   /\ length (fst (fst c)) < fuel /\ length (snd (fst c)) < fuel) calls ->
  let sstep := ispec_step rO rI radd rmul (K := K) ni no maxr maxf num maxlen b up down in
  outputs (fun s c => match node_process rO radd rmul kadd kmul inj fwd inv fuel s (fst (fst c)) (snd (fst c)) (snd c) with
                      | Some (Ok (s', y)) => (s', Some (IAudio (Ok y)))
                      | _ => (s, None)
                      end) s calls
  = outputs (fun t c => let '(t', e) := sstep (final sstep t (message_ops (fst (fst c)) (snd (fst c)))) (IProcess (snd c)) in
                        (t', Some e)) t0 calls.
Proof.
  intros T rO rI radd rmul rsub ropp RT K kzero kadd kmul inj fwd inv dsize b cst scale TO SP Es
    ni no maxr maxf num maxlen transition up down al routings initial rows cols Lu Ld Hb Hm Hn Wr Wi Wf
    s t0 calls fuel Es' Et W sstep.
  assert (X := interp_new_rel rO rI radd rmul rsub ropp RT kzero kadd kmul inj fwd inv dsize ni no maxr maxf num maxlen b
              transition up down cst TO SP Lu Ld Hb Hn al scale routings initial rows cols Hm Es Wr Wi Wf).
  rewrite Et in X. destruct X as (s0 & E & R). assert (s0 = s) by congruence. subst s0. clear E Es' Et.
  revert s t0 R. induction calls as [|c calls IH]; intros s t R; [reflexivity|]. rewrite !outputs_cons.
  assert (W1 := Forall_inv W). assert (W2 := Forall_inv_tail W).
  destruct W1 as (A1 & A2 & A3 & A4 & A5 & A6).
  destruct (node_ok rO rI radd rmul rsub ropp RT kzero kadd kmul inj fwd inv dsize ni no maxr maxf num maxlen b
              transition up down cst TO SP Lu Ld Hb Hn fuel s t _ _ _ R A1 A2 A3 A4 A5 A6) as (s1 & y & E & E1 & R1).
  rewrite E. cbv zeta in E1, R1. change (ispec_step rO rI radd rmul ni no maxr maxf num maxlen b up down) with sstep in E1, R1.
  destruct (sstep (final sstep t (message_ops (fst (fst c)) (snd (fst c)))) (IProcess (snd c))) as [t2 e2].
  cbn [fst snd] in *. subst e2. f_equal. now apply IH.
Qed.
Print Assumptions C69_component.

Lemma drain_after {T K M} (apply : interp T K -> M -> res (interp T K)) m e q2 : forall q1 s,
  (exists s1, fold_left (fun r m => x <- r ;; apply x m) q1 (Ok s) = Ok s1 /\ apply s1 m = Throw e) ->
  forall fuel, drain apply fuel s (q1 ++ m :: q2) = None.
Proof.
  induction q1 as [|m1 q1 IH]; intros s (s1 & E1 & E2) fuel; cbn [app].
  - simpl in E1. apply Ok_inj in E1. subst s1. now apply (drain_stuck apply s m e).
  - destruct fuel as [|fuel]; [reflexivity|]. cbn [drain]. cbn [fold_left bind] in E1.
    destruct (apply s m1) as [s'|e'|] eqn:Em.
    + apply IH. now exists s1.
    + exfalso. clear - E1. induction q1 as [|? ? IH]; [discriminate|exact (IH E1)].
    + exfalso. clear - E1. induction q1 as [|? ? IH]; [discriminate|exact (IH E1)].
Qed.

(** A message the convolver refuses stays in the queue: process() does not return, however
    long it runs.  So a single filter that is too long, or an interpolant with an id or
    filter index out of range, stops the signal flow. *)
Theorem C69_component_hangs_refuted :
  forall {T : Type} (rO : T) (radd rmul : T -> T -> T) {K : Type} (kadd kmul : K -> K -> K) (inj : T -> K)
         (fwd : list T -> list K) (inv : list K -> list T) s input,
  (* any queue with a refused filter *)
  (forall q1 m q2 interpolants s1 e,
     fold_left (fun r m => x <- r ;; apply_filter_message rO rmul fwd x m) q1 (Ok s) = Ok s1 ->
     apply_filter_message rO rmul fwd s1 m = Throw e ->
     forall fuel, node_process rO radd rmul kadd kmul inj fwd inv fuel s (q1 ++ m :: q2) interpolants input = None)
  (* any queue with a refused interpolant *)
  /\ (forall q1 p q2 s1 e,
     fold_left (fun r m => x <- r ;; apply_interpolant_message kadd kmul inj x m) q1 (Ok s) = Ok s1 ->
     apply_interpolant_message kadd kmul inj s1 p = Throw e ->
     forall fuel, node_process rO radd rmul kadd kmul inj fwd inv fuel s [] (q1 ++ p :: q2) input = None)
  (* refused are: *)
  /\ (forall idx ir, ir <> [] -> length (i_bank s) <= idx \/ c_maxlen (x_core (i_x s)) < length ir ->
       apply_filter_message rO rmul fwd s (idx, ir) = Throw InvalidArgument)
  /\ (forall p, x_max (i_x s) <= p_id p -> apply_interpolant_message kadd kmul inj s p = Throw OutOfRange).
Proof.
  intros T rO radd rmul K kadd kmul inj fwd inv s input. split; [|split; [|split]].
  - intros q1 m q2 ip s1 e E1 E2 fuel. unfold node_process.
    rewrite (drain_after _ m e q2 q1 s (ex_intro _ s1 (conj E1 E2)) fuel). reflexivity.
  - intros q1 p q2 s1 e E1 E2 fuel. unfold node_process. destruct fuel as [|fuel]; [reflexivity|]. cbn [drain].
    change (match drain (apply_interpolant_message kadd kmul inj) (S fuel) s (q1 ++ p :: q2) with
            | Some (Ok s2) => Some (interp_process rO radd rmul kadd kmul inj fwd inv s2 input)
            | Some (Throw e0) => Some (Throw e0) | Some UB => Some UB | None => None end = None).
    rewrite (drain_after _ p e q2 q1 s (ex_intro _ s1 (conj E1 E2)) (S fuel)). reflexivity.
  - intros idx ir N H. unfold apply_filter_message. cbn [fst snd]. destruct ir as [|x ir]; [congruence|].
    unfold interp_set_ir. destruct (Nat.leb_spec (length (i_bank s)) idx); [reflexivity|].
    destruct (Nat.ltb_spec (c_maxlen (x_core (i_x s))) (length (x :: ir))); [reflexivity|]. destruct H; lia.
  - intros p H. unfold apply_interpolant_message, interp_set_interpolant.
    destruct (Nat.leb_spec (x_max (i_x s)) (p_id p)); [reflexivity|lia].
Qed.
Print Assumptions C69_component_hangs_refuted.

(** ** Concrete runs over the integers modulo 5 *)
Lemma spectral5 : spectral_ok F5.add F5.mul (fun g : F5.f5 => g).
Proof. constructor; intros [] [] []; reflexivity. Qed.
Local Notation fwd5 := (dft F5.f0 F5.add F5.mul 4 F5.w).
Local Notation inv5 := (idft F5.f0 F5.add F5.mul 4 F5.w).
Definition new69 maxr maxf num routings initial rows :=
  interp_new F5.f0 F5.f1 F5.mul F5.f0 F5.add F5.mul (fun g => g) fwd5 (fun _ => 4) up5 down5
    1 2 2 2 maxr maxf num 2 1 F5.f4 routings initial rows 2.
Definition step69 := interp_step F5.f0 F5.add F5.mul F5.f0 F5.add F5.mul (fun g => g) fwd5 inv5 (fun _ => 4).
(** filters [1;0] and [2;1]; the interpolant 0 is 1 * first, then 3 * first + 2 * second = [2;2] *)
Definition ops69 : list (iop (T := F5.f5)) :=
  [ IProcess [[F5.f1; F5.f2]];
    ISetInterpolant (MkParam 0 [0; 1] [F5.f3; F5.f2]) true;
    IProcess [[F5.f1; F5.f1]]; IProcess [[F5.f1; F5.f3]] ].
Example C69_example :
  exists s, new69 2 2 2 [MkRouting 0 0 0 F5.f1] [MkParam 0 [0; 0] [F5.f1; F5.f0]] [[F5.f1; F5.f0]; [F5.f2; F5.f1]] = Ok s
  /\ outputs step69 s ops69
     = [ IAudio (Ok [[F5.f1; F5.f2]; [F5.f0; F5.f0]]); IReturn (Ok tt);
         IAudio (Ok [[F5.f1; F5.f4]; [F5.f0; F5.f0]]); IAudio (Ok [[F5.f4; F5.f3]; [F5.f0; F5.f0]]) ].
Proof.
  assert (X := C69_refines F5.f0 F5.f1 F5.add F5.mul F5.sub F5.opp F5.ring F5.f0 F5.add F5.mul (fun g => g)
    _ _ (fun _ => 4) 2 F5.f4 F5.f4 F5.transform spectral5 eq_refl 1 2 2 2 2 2 2 up5 down5 1
    [MkRouting 0 0 0 F5.f1] [MkParam 0 [0; 0] [F5.f1; F5.f0]] [[F5.f1; F5.f0]; [F5.f2; F5.f1]] 2 ops69).
  cbv beta in X. specialize (X eq_refl eq_refl ltac:(lia) ltac:(lia) ltac:(lia)).
  assert (Y := X ltac:(repeat constructor) ltac:(repeat constructor) ltac:(repeat constructor)
                 ltac:(repeat constructor)). clear X.
  match type of Y with match ?r with _ => _ end => set (t := r) in Y; assert (E : exists t', t = Ok t' /\
      outputs (ispec_step F5.f0 F5.f1 F5.add F5.mul (K := F5.f5) 1 2 2 2 2 2 2 up5 down5) t' ops69
       = [ IAudio (Ok [[F5.f1; F5.f2]; [F5.f0; F5.f0]]); IReturn (Ok tt);
         IAudio (Ok [[F5.f1; F5.f4]; [F5.f0; F5.f0]]); IAudio (Ok [[F5.f4; F5.f3]; [F5.f0; F5.f0]]) ]) end.
  { eexists. split; [reflexivity|]. vm_compute. reflexivity. }
  destruct E as (t' & E & O). rewrite E in Y. destruct Y as (s & Es & Os). exists s. split; [exact Es|].
  unfold step69. rewrite Os. exact O.
Qed.

(** The constructor passes its two limits to the crossfading convolver in the wrong order.
    With maxRoutingPoints = 2 and maxFilterEntries = 1, two routings are refused, and an
    interpolant for the second one is refused as well; with maxRoutingPoints = 1 and
    maxFilterEntries = 2, two routings are accepted, and an interpolant with id 1 is accepted
    and makes the convolver access memory beyond its tables. *)
Theorem C69_limits_refuted :
  new69 2 1 1 [MkRouting 0 0 0 F5.f1; MkRouting 0 1 1 F5.f1] [] [[F5.f1; F5.f0]] = Throw InvalidArgument
  /\ new69 2 1 1 [MkRouting 0 0 1 F5.f1] [MkParam 1 [0] [F5.f1]] [[F5.f1; F5.f0]] = Throw OutOfRange
  /\ is_ok (new69 1 2 1 [MkRouting 0 0 0 F5.f1; MkRouting 0 1 0 F5.f1] [] [[F5.f1; F5.f0]]) = true
  /\ new69 1 2 1 [MkRouting 0 0 0 F5.f1] [MkParam 1 [0] [F5.f1]] [[F5.f1; F5.f0]] = UB.
Proof. repeat split; vm_compute; reflexivity. Qed.
Print Assumptions C69_limits_refuted.

(** The constructor does not reject zero interpolants (the comment at line 264 says it
    does): setting an interpolant then dereferences the end of an empty range. *)
Theorem C69_zero_interpolants_refuted :
  is_ok (new69 2 2 0 [MkRouting 0 0 0 F5.f1] [] [[F5.f1; F5.f0]]) = true
  /\ new69 2 2 0 [MkRouting 0 0 0 F5.f1] [MkParam 0 [] []] [[F5.f1; F5.f0]] = UB.
Proof. split; vm_compute; reflexivity. Qed.
Print Assumptions C69_zero_interpolants_refuted.
