(** * C58: vector base amplitude panning recreates the direction of the source *)
From Verif Require Import Base QuaternionModel QuaternionProofs ListenerModel VbapModel VbapSpec VbapProofs VbapLaws.
From Coq Require Import Reals Lra Permutation.
Local Open Scope R_scope.
Local Open Scope res_scope.

(** The gains of calcPlainVBAP belong to one triplet and, with the directions from the listener to
    the loudspeakers, add up to the vector from the listener to the source.  They are nonnegative
    if any triplet encloses the source.  Otherwise the triplet has the largest smallest coordinate
    among those with at most one negative coordinate, and the call throws exactly if there is none.
    Missing for the full claim: arrays with degenerate triplets, 2D arrays with a listener off the
    plane, both refuted below. *)
Theorem C58_direction_partial : forall epsilon a l pos planeWave,
  0 < epsilon -> placed epsilon a l -> (a_2D a = false \/ planar a l) ->
  exists v, setListenerPosition epsilon a l = Ok v
  /\ match calcPlainVBAP v pos planeWave with
     | Ok gain => length gain = length (a_positions a) /\ total gain (directions a l) = seen a l pos planeWave
         /\ (exists t g, In t (a_triplets a) /\ coordinates a l t (seen a l pos planeWave) g /\ represents a t g gain
              /\ selects a l (seen a l pos planeWave) t g /\ candidate g)
         /\ ((exists t g, In t (a_triplets a) /\ coordinates a l t (seen a l pos planeWave) g /\ inside_cone (a_2D a) g) -> forall k, 0 <= nth k gain 0)
     | Throw e => e = RuntimeError
         /\ forall t g, In t (a_triplets a) -> coordinates a l t (seen a l pos planeWave) g -> ~ candidate g
     | UB => False
     end.
Proof.
  intros epsilon a l pos pw He P K. destruct (setListenerPosition_ok epsilon He a l P) as (v & S & VA & VL & _). exists v. split; [exact S|].
  pose proof (plain_spec epsilon He a l pos pw v P S) as H. destruct (calcPlainVBAP v pos pw) as [gain|e|] eqn:E; [| |exact H].
  - destruct (plain_total epsilon He a l pos pw v gain P K S E) as (L & T & _). split; [exact L|]. split; [exact T|].
    destruct H as (t & g & It & C & R & Se). split.
    + exists t, g. repeat split; try assumption; try apply R. destruct Se as [(A & B & _)|(_ & Cd & _)]; [left; now split|exact Cd].
    + intros (t' & g' & It' & C' & I') k. destruct Se as [(A & B & D)|(N & _)]; [|now elim (N t' g' It' C')].
      destruct R as [_ R]. rewrite R. unfold gain_of. destruct (Nat.eqb k (t_1 t)); [exact A|]. destruct (Nat.eqb k (t_2 t)); [exact B|].
      destruct (a_2D a); [lra|]. destruct (t_3 t); [|lra]. destruct (Nat.eqb k n); [|lra]. destruct D; [discriminate|assumption].
  - destruct H as [-> H]. split; [reflexivity|]. intros t g It C. now apply (H t g).
Qed.

(** Without virtual loudspeakers the gains of calculateGains have unit power and the direction of
    the source, unless the source is (nearly) at the position of the listener.  The power never
    exceeds one, virtual loudspeakers or not. *)
Theorem C58_normalised_partial : forall epsilon a l pos planeWave v r,
  0 < epsilon -> placed epsilon a l -> (a_2D a = false \/ planar a l) -> setListenerPosition epsilon a l = Ok v ->
  calculateGains epsilon v pos planeWave = Ok r ->
  power r <= 1
  /\ (a_regular a = length (a_positions a) -> 3 * (epsilon * epsilon) <= square (seen a l pos planeWave) ->
      power r = 1 /\ length r = length (a_positions a) /\ exists k, 0 < k /\ total r (directions a l) = scale3 k (seen a l pos planeWave)).
Proof.
  intros epsilon a l pos pw v r He P K S E. assert (S' := S). destruct (setListenerPosition_ok epsilon He a l P) as (v' & S'' & VA & VL & _).
  rewrite S in S''. apply Ok_inj in S''. subst v'. split.
  - unfold calculateGains in E. destruct (calcPlainVBAP v pos pw); try discriminate. cbn [bind] in E. apply Ok_inj in E. subst r. now apply powerNormalisation_bound.
  - intros Rg F. destruct (gains_normalised epsilon He a l pos pw v r P K Rg S VA F E) as (A & k & gain & K0 & EP & -> & _ & T). split; [exact A|].
    rewrite map_length. split; [apply (plain_total epsilon He a l pos pw v gain P K S EP)|]. exists k. split; assumption.
Qed.

(** The gains only depend on the direction of the source: moving it along the ray from the
    listener, or replacing it by a plane wave from that direction, changes nothing. *)
Theorem C58_distance_partial : forall epsilon a l pos planeWave pos' planeWave' v k r,
  0 < epsilon -> placed epsilon a l -> (a_2D a = false \/ planar a l) -> a_regular a = length (a_positions a) ->
  setListenerPosition epsilon a l = Ok v -> 0 < k -> seen a l pos' planeWave' = scale3 k (seen a l pos planeWave) ->
  3 * (epsilon * epsilon) <= square (seen a l pos planeWave) -> 3 * (epsilon * epsilon) <= square (seen a l pos' planeWave') ->
  calculateGains epsilon v pos planeWave = Ok r -> calculateGains epsilon v pos' planeWave' = Ok r.
Proof.
  intros epsilon a l pos pw pos' pw' v k r He P K Rg S K0 SC F F' E. destruct (setListenerPosition_ok epsilon He a l P) as (v' & S' & VA & VL & _).
  rewrite S in S'. apply Ok_inj in S'. subst v'. now apply (gains_distance epsilon He a l pos pw pos' pw' v k r).
Qed.

(** For a triangulation, any triplet that encloses the source yields the gains. *)
Theorem C58_triangulation_partial : forall epsilon a l pos planeWave v t gain,
  0 < epsilon -> a_2D a = false -> placed epsilon a l -> triangulation a l -> setListenerPosition epsilon a l = Ok v ->
  In t (a_triplets a) -> encloses a l t (seen a l pos planeWave) gain -> calcPlainVBAP v pos planeWave = Ok gain.
Proof. intros epsilon a l pos pw v t gain He D P Tr S T E. now apply (triangulation_gains epsilon He a l pos pw v t gain). Qed.

(** The order of the triplets of a triangulation does not matter for an enclosed source. *)
Theorem C58_triplet_order_partial : forall epsilon a ts l pos planeWave v v' t gain,
  let a' := Array (a_2D a) (a_infinite a) (a_positions a) (a_regular a) ts (a_rerouting a) in
  0 < epsilon -> a_2D a = false -> placed epsilon a l -> triangulation a l -> Permutation (a_triplets a) ts ->
  setListenerPosition epsilon a l = Ok v -> setListenerPosition epsilon a' l = Ok v' ->
  In t (a_triplets a) -> encloses a l t (seen a l pos planeWave) gain -> calcPlainVBAP v' pos planeWave = calcPlainVBAP v pos planeWave.
Proof.
  intros epsilon a ts l pos pw v v' t gain a' He D P Tr Pm S S' T E. rewrite (triangulation_gains epsilon He a l pos pw v t gain D P Tr S T E).
  apply (triangulation_gains epsilon He a' l pos pw v' t gain); try assumption.
  - destruct P as [P1 P2 P3]. constructor; [exact P1|exact P2|]. intros x Hx. apply P3. now apply (Permutation_in _ (Permutation_sym Pm)).
  - intros x y p Hx Hy. apply Tr; now apply (Permutation_in _ (Permutation_sym Pm)).
  - now apply (Permutation_in _ Pm).
Qed.

(** ** A concrete array *)
(** Four loudspeakers on the axes around a listener at (1, 0, 0) and two triplets *)
Definition tent : array := Array false false [P3 2 0 0; P3 1 3 0; P3 1 0 2; P3 1 0 (-5)] 4 [Triplet 0 1 (Some 2%nat); Triplet 0 1 (Some 3%nat)] [].
Definition here : pos3 R := P3 1 0 0.
Definition origin : pos3 R := P3 0 0 0.
Definition eps0 : R := 1 / 1000.
Lemma cons_eq (x y : R) l l' : x = y -> l = l' -> x :: l = y :: l'. Proof. now intros -> ->. Qed.
Lemma norm3_is a b : 0 <= b -> square a = b * b -> norm3 a = b.
Proof. intros B E. rewrite norm3_square, E. now apply sqrt_square. Qed.
Lemma towards_is l s n u : 0 < n -> square (P3 (px s - px l) (py s - py l) (pz s - pz l)) = n * n ->
  scale3 n u = P3 (px s - px l) (py s - py l) (pz s - pz l) -> distance l s = n /\ towards l s = u.
Proof.
  intros N E U. unfold distance, towards. cbv zeta. rewrite <- U in *. rewrite (norm3_is _ n) by (try lra; exact E). split; [reflexivity|].
  destruct u as [ux uy uz]. unfold scale3. cbn [px py pz]. apply P3_eq; field; lra.
Qed.
Ltac tw n u := apply (towards_is _ _ n u); [lra|unfold square; cbn [px py pz here origin]; lra|unfold scale3; cbn [px py pz here origin]; apply P3_eq; lra].
Lemma tent_towards : towards here (P3 2 0 0) = P3 1 0 0 /\ towards here (P3 1 3 0) = P3 0 1 0 /\ towards here (P3 1 0 2) = P3 0 0 1 /\ towards here (P3 1 0 (-5)) = P3 0 0 (-1).
Proof. repeat split; [tw 1 (P3 1 0 0)|tw 3 (P3 0 1 0)|tw 2 (P3 0 0 1)|tw 5 (P3 0 0 (-1))]. Qed.
Lemma tent_directions : directions tent here = [P3 1 0 0; P3 0 1 0; P3 0 0 1; P3 0 0 (-1)].
Proof. destruct tent_towards as (A & B & C & D). unfold directions. cbn [tent a_positions map]. now rewrite A, B, C, D. Qed.
Lemma tent_placed : placed eps0 tent here.
Proof.
  constructor.
  - intros s [<-|[<-|[<-|[<-|[]]]]].
    + assert (E : distance here (P3 2 0 0) = 1) by tw 1 (P3 1 0 0). rewrite E. unfold eps0. lra.
    + assert (E : distance here (P3 1 3 0) = 3) by tw 3 (P3 0 1 0). rewrite E. unfold eps0. lra.
    + assert (E : distance here (P3 1 0 2) = 2) by tw 2 (P3 0 0 1). rewrite E. unfold eps0. lra.
    + assert (E : distance here (P3 1 0 (-5)) = 5) by tw 5 (P3 0 0 (-1)). rewrite E. unfold eps0. lra.
  - discriminate.
  - intros t [<-|[<-|[]]]; unfold legs; rewrite tent_directions; cbn [t_1 t_2 t_3 nth_error tent a_2D].
    + exists (P3 1 0 0), (P3 0 1 0), (P3 0 0 1). split; [repeat split; exists 2%nat; now split|]. unfold volume. cbn [px py pz]. lra.
    + exists (P3 1 0 0), (P3 0 1 0), (P3 0 0 (-1)). split; [repeat split; exists 3%nat; now split|]. unfold volume. cbn [px py pz]. lra.
Qed.
Lemma tent_triangulation : triangulation tent here.
Proof.
  assert (Q : forall t p x, In t (a_triplets tent) -> encloses tent here t p x ->
            exists a b c d, x = [a; b; c; d] /\ 0 <= a /\ 0 <= b /\ 0 <= c /\ 0 <= d /\ p = P3 a b (c - d)
              /\ (t_3 t = Some 2%nat -> d = 0) /\ (t_3 t = Some 3%nat -> c = 0)).
  { intros t p x T (L & N & S & E). rewrite tent_directions in E. destruct x as [|a [|b [|c [|d [|]]]]]; try discriminate L. exists a, b, c, d.
    repeat split; [apply (N 0%nat)|apply (N 1%nat)|apply (N 2%nat)|apply (N 3%nat)| | |].
    - rewrite <- E. unfold total, add3, scale3, zero3. cbn [px py pz]. apply P3_eq; ring.
    - intros T3. destruct (Req_EM_T d 0) as [Z|Z]; [exact Z|]. specialize (S 3%nat Z). destruct T as [<-|[<-|[]]]; cbn in S, T3; destruct S as [S|[S|[_ S]]]; discriminate.
    - intros T3. destruct (Req_EM_T c 0) as [Z|Z]; [exact Z|]. specialize (S 2%nat Z). destruct T as [<-|[<-|[]]]; cbn in S, T3; destruct S as [S|[S|[_ S]]]; discriminate. }
  intros t t' p T T' (x & E) (x' & E'). destruct (Q t p x T E) as (a & b & c & d & -> & A & B & C & D & EP & D0 & C0).
  destruct (Q t' p x' T' E') as (a' & b' & c' & d' & -> & A' & B' & C' & D' & EP' & D0' & C0').
  rewrite EP' in EP. injection EP as E1 E2 E3. assert (X : [a; b; c; d] = [a'; b'; c'; d']).
  { destruct T as [<-|[<-|[]]], T' as [<-|[<-|[]]]; cbn in *; try (specialize (D0 eq_refl)); try (specialize (C0 eq_refl)); try (specialize (D0' eq_refl)); try (specialize (C0' eq_refl)); repeat f_equal; lra. }
  exists [a; b; c; d]. split; [exact E|]. rewrite X. exact E'.
Qed.
(** A source in the second triplet: the hypotheses of the theorems hold and the gains are 1, 2 and 2 *)
Example tent_gains : exists v, setListenerPosition eps0 tent here = Ok v
  /\ calcPlainVBAP v (P3 2 2 (-2)) false = Ok [1; 2; 0; 2]
  /\ calculateGains eps0 v (P3 2 2 (-2)) false = Ok [1 / 3; 2 / 3; 0; 2 / 3]
  /\ calculateGains eps0 v (P3 10 20 (-20)) true = Ok [1 / 3; 2 / 3; 0; 2 / 3].
Proof.
  assert (He : 0 < eps0) by (unfold eps0; lra). destruct (C58_direction_partial eps0 tent here (P3 2 2 (-2)) false He tent_placed (or_introl eq_refl)) as (v & S & _).
  exists v. split; [exact S|]. assert (EP : calcPlainVBAP v (P3 2 2 (-2)) false = Ok [1; 2; 0; 2]).
  { apply (C58_triangulation_partial eps0 tent here (P3 2 2 (-2)) false v (Triplet 0 1 (Some 3%nat)) [1; 2; 0; 2] He eq_refl tent_placed tent_triangulation S); [right; now left|].
    repeat split.
    - intros [|[|[|[|[|]]]]]; cbn; lra.
    - intros [|[|[|[|k]]]]; unfold corner; cbn [nth t_1 t_2 t_3 tent a_2D]; intros H; [left; reflexivity|right; left; reflexivity|elim H; reflexivity|right; right; split; reflexivity|].
      destruct k; elim H; reflexivity.
    - rewrite tent_directions. unfold seen, total, add3, scale3, zero3. cbn [tent a_2D here px py pz]. apply P3_eq; ring. }
  split; [exact EP|].
  assert (SQ : sqrt (power [1; 2; 0; 2]) = 3) by (replace (power [1; 2; 0; 2]) with (3 * 3) by (cbn; ring); apply sqrt_square; lra).
  assert (EG : calculateGains eps0 v (P3 2 2 (-2)) false = Ok [1 / 3; 2 / 3; 0; 2 / 3]).
  { unfold calculateGains. rewrite EP. cbn [bind]. f_equal. destruct (setListenerPosition_ok eps0 He tent here tent_placed) as (v' & S' & VA & _). rewrite S in S'. apply Ok_inj in S'. subst v'.
    rewrite VA, applyRerouting_regular by reflexivity. unfold powerNormalisation. rewrite power_eq, SQ. rewrite Rmax_left by (unfold eps0; lra). cbn [map]. repeat apply cons_eq; try reflexivity; field. }
  split; [exact EG|].
  apply (C58_distance_partial eps0 tent here (P3 2 2 (-2)) false (P3 10 20 (-20)) true v 10 _ He tent_placed (or_introl eq_refl) eq_refl S); try exact EG.
  - lra.
  - unfold seen, scale3. cbn [tent a_2D here px py pz]. apply P3_eq; ring.
  - unfold square, seen, eps0. cbn [tent a_2D here px py pz]. lra.
  - unfold square, seen, eps0. cbn [tent a_2D here px py pz]. lra.
Qed.
(** Sources beyond the tent: to the left no triplet has fewer than two negative coordinates *)
Example tent_outside : exists v, setListenerPosition eps0 tent here = Ok v /\ calcPlainVBAP v (P3 0 (-1) 0) false = Throw RuntimeError.
Proof.
  assert (He : 0 < eps0) by (unfold eps0; lra). destruct (C58_direction_partial eps0 tent here (P3 0 (-1) 0) false He tent_placed (or_introl eq_refl)) as (v & S & H).
  exists v. split; [exact S|]. destruct (calcPlainVBAP v _ _) as [gain|e|]; [exfalso|now destruct H as [-> _]|contradiction].
  destruct H as (_ & _ & (t & [[x y] z] & T & (u & w & q & (A & B & C) & E) & _ & _ & Cd) & _). rewrite tent_directions in *. cbn [tent a_2D] in C. destruct C as (i & T3 & C).
  destruct T as [<-|[<-|[]]]; cbn in T3, A, B; apply Some_inj in T3; subst i; cbn in C; apply Some_inj in A; apply Some_inj in B; apply Some_inj in C; subst u w q;
    unfold seen, comb, combine3, add3, scale3 in E; cbn [tent a_2D here px py pz fst snd] in E; injection E as E1 E2 E3; unfold candidate in Cd; cbn [fst snd] in Cd; lra.
Qed.

(** ** What does not hold *)
Ltac dec := repeat (match goal with
  | |- context [Rleb ?x ?y] => first [replace (Rleb x y) with true by (symmetry; apply Rleb_le; lra) | replace (Rleb x y) with false by (symmetry; apply Rleb_nle; lra)]
  | |- context [Rltb ?x ?y] => first [replace (Rltb x y) with true by (symmetry; apply Rltb_lt; lra) | replace (Rltb x y) with false by (symmetry; apply Rltb_nlt; lra)] end; cbn [andb orb Nat.leb Nat.add]).

(** A source at the position of the listener is silent *)
Theorem C58_at_listener_refuted : exists v, setListenerPosition eps0 tent here = Ok v /\ calculateGains eps0 v here false = Ok [0; 0; 0; 0].
Proof.
  assert (He : 0 < eps0) by (unfold eps0; lra). destruct (C58_direction_partial eps0 tent here here false He tent_placed (or_introl eq_refl)) as (v & S & _).
  exists v. split; [exact S|]. assert (EP : calcPlainVBAP v here false = Ok [0; 0; 0; 0]).
  { apply (C58_triangulation_partial eps0 tent here here false v (Triplet 0 1 (Some 3%nat)) [0; 0; 0; 0] He eq_refl tent_placed tent_triangulation S); [right; now left|].
    repeat split.
    - intros [|[|[|[|[|]]]]]; cbn; lra.
    - intros [|[|[|[|k]]]]; cbn; intros H; try (now elim H). now destruct k; elim H.
    - rewrite tent_directions. unfold seen, total, add3, scale3, zero3. cbn [tent a_2D here px py pz]. apply P3_eq; ring. }
  unfold calculateGains. rewrite EP. cbn [bind]. f_equal. destruct (setListenerPosition_ok eps0 He tent here tent_placed) as (v' & S' & VA & _). rewrite S in S'. apply Ok_inj in S'. subst v'.
  rewrite VA, applyRerouting_regular by reflexivity. unfold powerNormalisation. cbn [map]. repeat apply cons_eq; try reflexivity; ring.
Qed.

Lemma normalise_is epsilon l s n u : 0 < epsilon -> epsilon <= n -> square (P3 (px s - px l) (py s - py l) (pz s - pz l)) = n * n ->
  scale3 n u = P3 (px s - px l) (py s - py l) (pz s - pz l) -> normalise epsilon (Rpsub s l) = u.
Proof. intros He L E U. destruct (towards_is l s n u) as [A B]; try assumption; [lra|]. rewrite <- B. apply normalise_towards; [exact He|]. now rewrite A. Qed.
Ltac nis n u := apply (normalise_is _ _ _ n u); [unfold eps0; lra|unfold eps0; lra|unfold square; cbn [px py pz origin]; lra|unfold scale3; cbn [px py pz origin]; apply P3_eq; lra].

(** A triplet whose directions lie in a plane with the listener attracts sources: the gains of its
    two opposite loudspeakers cancel, although the second triplet encloses the source *)
Definition flat_triplet : array := Array false false [P3 1 0 0; P3 (-1) 0 0; P3 0 1 0; P3 0 0 (-1)] 4 [Triplet 0 1 (Some 2%nat); Triplet 0 2 (Some 3%nat)] [].
Theorem C58_degenerate_refuted : exists v, setListenerPosition eps0 flat_triplet origin = Ok v
  /\ encloses flat_triplet origin (Triplet 0 2 (Some 3%nat)) (seen flat_triplet origin (P3 1 1 (-1)) false) [1; 0; 1; 1]
  /\ exists r, calculateGains eps0 v (P3 1 1 (-1)) false = Ok r /\ power r = 1 /\ total r (directions flat_triplet origin) = zero3.
Proof.
  assert (He : 0 < eps0) by (unfold eps0; lra).
  assert (ED : directions flat_triplet origin = [P3 1 0 0; P3 (-1) 0 0; P3 0 1 0; P3 0 0 (-1)]).
  { unfold directions. cbn [flat_triplet a_positions map]. repeat f_equal; [tw 1 (P3 1 0 0)|tw 1 (P3 (-1) 0 0)|tw 1 (P3 0 1 0)|tw 1 (P3 0 0 (-1))]. }
  assert (N1 : normalise eps0 (Rpsub (P3 1 0 0) origin) = P3 1 0 0) by nis 1 (P3 1 0 0).
  assert (N2 : normalise eps0 (Rpsub (P3 (-1) 0 0) origin) = P3 (-1) 0 0) by nis 1 (P3 (-1) 0 0).
  assert (N3 : normalise eps0 (Rpsub (P3 0 1 0) origin) = P3 0 1 0) by nis 1 (P3 0 1 0).
  assert (N4 : normalise eps0 (Rpsub (P3 0 0 (-1)) origin) = P3 0 0 (-1)) by nis 1 (P3 0 0 (-1)).
  eexists. split; [|split].
  - unfold setListenerPosition, map_res, triplet_inverse, position. cbn [flat_triplet a_triplets a_positions a_2D t_1 t_2 t_3 nth_error bind]. rewrite N1, N2, N3, N4. reflexivity.
  - repeat split.
    + intros [|[|[|[|[|]]]]]; cbn; lra.
    + intros [|[|[|[|k]]]]; unfold corner; cbn [nth t_1 t_2 t_3 flat_triplet a_2D]; intros H; [left; reflexivity|elim H; reflexivity|right; left; reflexivity|right; right; split; reflexivity|].
      destruct k; elim H; reflexivity.
    + rewrite ED. unfold seen, total, add3, scale3, zero3. cbn [flat_triplet a_2D origin px py pz]. apply P3_eq; ring.
  - unfold calculateGains, calcPlainVBAP. cbn [v_array v_inverse v_listener flat_triplet a_2D a_positions]. rewrite search_eq by exact I. cbn [map search'].
    assert (C : coords (inv_matrix (P3 1 0 0) (P3 (-1) 0 0) (P3 0 1 0)) (Rpsub (P3 1 1 (-1)) origin) = (1, 1, 0)).
    { unfold coords, inv_matrix, Rdot, Rpsub. destruct (Req_EM_T _ _) as [_|N]; [|elim N; ring]. cbn [i_1 i_2 i_3 px py pz origin]. f_equal; [f_equal|]; ring. }
    rewrite C. unfold insideb. cbn [fst snd]. dec. cbn [flat_triplet a_triplets nth_error t_1 t_2 t_3]. unfold vset. cbn [repeat length Nat.ltb Nat.leb firstn skipn app bind].
    rewrite applyRerouting_regular by reflexivity. eexists. split; [reflexivity|].
    destruct (powerNormalisation_loud eps0 [1; 1; 0; 0] He) as (P & k & _ & E & _); [cbn; unfold eps0; lra|]. split; [exact P|]. rewrite E, total_scale, ED.
    unfold total, scale3, add3, zero3. cbn [px py pz]. apply P3_eq; ring.
Qed.

(** A 2D array with the listener below its plane and off its centre: a source towards (5, 1) is
    reproduced towards (2, 1), because the axis that stands in for the third loudspeaker is tilted *)
Definition horizontal : array := Array true false [P3 (7/4) 2 0; P3 (7/4) (-2) 0] 2 [Triplet 0 1 None] [].
Definition below : pos3 R := P3 (3/4) 0 2.
Theorem C58_listener_off_plane_refuted : exists v gain, setListenerPosition eps0 horizontal below = Ok v
  /\ seen horizontal below (P3 (23/4) 1 0) false = P3 5 1 0
  /\ calcPlainVBAP v (P3 (23/4) 1 0) false = Ok gain /\ total gain (directions horizontal below) = P3 2 1 (-4).
Proof.
  assert (He : 0 < eps0) by (unfold eps0; lra).
  assert (ED : directions horizontal below = [P3 (1/3) (2/3) (-2/3); P3 (1/3) (-2/3) (-2/3)]).
  { unfold directions. cbn [horizontal a_positions map]. repeat f_equal.
    - apply (towards_is _ _ 3 (P3 (1/3) (2/3) (-2/3))); [lra|unfold square; cbn [px py pz below]; lra|unfold scale3; cbn [px py pz below]; apply P3_eq; lra].
    - apply (towards_is _ _ 3 (P3 (1/3) (-2/3) (-2/3))); [lra|unfold square; cbn [px py pz below]; lra|unfold scale3; cbn [px py pz below]; apply P3_eq; lra]. }
  assert (N1 : normalise eps0 (Rpsub (P3 (7/4) 2 0) below) = P3 (1/3) (2/3) (-2/3)).
  { apply (normalise_is _ _ _ 3); [unfold eps0; lra|unfold eps0; lra|unfold square; cbn [px py pz below]; lra|unfold scale3; cbn [px py pz below]; apply P3_eq; lra]. }
  assert (N2 : normalise eps0 (Rpsub (P3 (7/4) (-2) 0) below) = P3 (1/3) (-2/3) (-2/3)).
  { apply (normalise_is _ _ _ 3); [unfold eps0; lra|unfold eps0; lra|unfold square; cbn [px py pz below]; lra|unfold scale3; cbn [px py pz below]; apply P3_eq; lra]. }
  assert (N3 : normalise eps0 (Rpsub (P3 0 0 1) below) = P3 (-3/5) 0 (-4/5)).
  { apply (normalise_is _ _ _ (5/4)); [unfold eps0; lra|unfold eps0; lra|unfold square; cbn [px py pz below]; lra|unfold scale3; cbn [px py pz below]; apply P3_eq; lra]. }
  eexists. exists [15/4; 9/4]. split; [|split; [|split]].
  - unfold setListenerPosition, map_res, triplet_inverse, position. cbn [horizontal a_triplets a_positions a_2D t_1 t_2 t_3 nth_error bind]. rewrite N1, N2, N3. reflexivity.
  - unfold seen. cbn [horizontal a_2D px py pz below]. apply P3_eq; lra.
  - unfold calcPlainVBAP. cbn [v_array v_inverse v_listener horizontal a_2D a_positions]. rewrite search_eq by exact I. cbn [map search'].
    set (p := P3 (px (Rpsub (P3 (23/4) 1 0) below)) (py (Rpsub (P3 (23/4) 1 0) below)) 0).
    assert (C : coords (inv_matrix (P3 (1/3) (2/3) (-2/3)) (P3 (1/3) (-2/3) (-2/3)) (P3 (-3/5) 0 (-4/5))) p = (15/4, 9/4, -5)).
    { rewrite <- (inverse_complete (P3 (1/3) (2/3) (-2/3)) (P3 (1/3) (-2/3) (-2/3)) (P3 (-3/5) 0 (-4/5)) (15/4) (9/4) (-5)) by (unfold volume; cbn [px py pz]; lra).
      f_equal. unfold p, Rpsub, combine3, add3, scale3. cbn [px py pz below]. apply P3_eq; lra. }
    rewrite C. unfold insideb. cbn [fst snd]. rewrite orb_true_r. dec. cbn [horizontal a_triplets nth_error t_1 t_2 t_3]. unfold vset. cbn [repeat length Nat.ltb Nat.leb firstn skipn app bind]. reflexivity.
  - rewrite ED. unfold total, add3, scale3, zero3. cbn [px py pz]. apply P3_eq; lra.
Qed.

(** The loudspeakers of an infinite array lie in the same direction wherever the listener is, but
    the position of the listener is subtracted all the same: a plane wave between two loudspeakers
    of such an array is rejected when the listener has moved *)
Definition distant : array := Array false true [P3 1 0 0; P3 0 1 0; P3 1 1 1] 3 [Triplet 0 1 (Some 2%nat)] [].
Theorem C58_infinite_array_refuted : exists v v', a_infinite distant = true
  /\ setListenerPosition eps0 distant origin = Ok v /\ calcPlainVBAP v (P3 1 1 0) true = Ok [1; 1; 0]
  /\ setListenerPosition eps0 distant (P3 1 1 0) = Ok v' /\ calcPlainVBAP v' (P3 1 1 0) true = Throw RuntimeError.
Proof.
  assert (S3 : 0 < sqrt 3) by (apply sqrt_lt_R0; lra). assert (S3' : sqrt 3 * sqrt 3 = 3) by (apply sqrt_def; lra).
  assert (S31 : 1 <= sqrt 3) by (rewrite <- sqrt_1; apply sqrt_le_1_alt; lra).
  assert (N1 : normalise eps0 (Rpsub (P3 1 0 0) origin) = P3 1 0 0) by nis 1 (P3 1 0 0).
  assert (N2 : normalise eps0 (Rpsub (P3 0 1 0) origin) = P3 0 1 0) by nis 1 (P3 0 1 0).
  assert (N3 : normalise eps0 (Rpsub (P3 1 1 1) origin) = P3 (/ sqrt 3) (/ sqrt 3) (/ sqrt 3)).
  { apply (normalise_is _ _ _ (sqrt 3)); [unfold eps0; lra|unfold eps0; lra|unfold square; cbn [px py pz origin]; lra|unfold scale3; cbn [px py pz origin]; apply P3_eq; field; lra]. }
  assert (M1 : normalise eps0 (Rpsub (P3 1 0 0) (P3 1 1 0)) = P3 0 (-1) 0) by nis 1 (P3 0 (-1) 0).
  assert (M2 : normalise eps0 (Rpsub (P3 0 1 0) (P3 1 1 0)) = P3 (-1) 0 0) by nis 1 (P3 (-1) 0 0).
  assert (M3 : normalise eps0 (Rpsub (P3 1 1 1) (P3 1 1 0)) = P3 0 0 1) by nis 1 (P3 0 0 1).
  eexists. eexists. split; [reflexivity|]. split; [|split; [|split]].
  - unfold setListenerPosition, map_res, triplet_inverse, position. cbn [distant a_triplets a_positions a_2D t_1 t_2 t_3 nth_error bind]. rewrite N1, N2, N3. reflexivity.
  - unfold calcPlainVBAP. cbn [v_array v_inverse v_listener distant a_2D a_positions]. rewrite search_eq by exact I. cbn [map search'].
    assert (C : coords (inv_matrix (P3 1 0 0) (P3 0 1 0) (P3 (/ sqrt 3) (/ sqrt 3) (/ sqrt 3))) (P3 1 1 0) = (1, 1, 0)).
    { assert (I3 : / sqrt 3 > 0) by now apply Rinv_0_lt_compat.
      rewrite <- (inverse_complete (P3 1 0 0) (P3 0 1 0) (P3 (/ sqrt 3) (/ sqrt 3) (/ sqrt 3)) 1 1 0) by (unfold volume; cbn [px py pz]; lra).
      f_equal. unfold combine3, add3, scale3. cbn [px py pz]. apply P3_eq; ring. }
    rewrite C. unfold insideb. cbn [fst snd]. dec. cbn [distant a_triplets nth_error t_1 t_2 t_3]. unfold vset. cbn [repeat length Nat.ltb Nat.leb firstn skipn app bind]. reflexivity.
  - unfold setListenerPosition, map_res, triplet_inverse, position. cbn [distant a_triplets a_positions a_2D t_1 t_2 t_3 nth_error bind]. rewrite M1, M2, M3. reflexivity.
  - unfold calcPlainVBAP. cbn [v_array v_inverse v_listener distant a_2D a_positions]. rewrite search_eq by exact I. cbn [map search'].
    assert (C : coords (inv_matrix (P3 0 (-1) 0) (P3 (-1) 0 0) (P3 0 0 1)) (P3 1 1 0) = (-1, -1, 0)).
    { rewrite <- (inverse_complete (P3 0 (-1) 0) (P3 (-1) 0 0) (P3 0 0 1) (-1) (-1) 0) by (unfold volume; cbn [px py pz]; lra).
      f_equal. unfold combine3, add3, scale3. cbn [px py pz]. apply P3_eq; ring. }
    rewrite C. unfold insideb, negatives. cbn [fst snd]. dec. reflexivity.
Qed.

(** a 2D array around a listener in its plane meets the hypotheses of the theorems *)
Definition square_array : array := Array true false [P3 1 0 0; P3 0 1 0; P3 (-1) 0 0; P3 0 (-1) 0] 4
  [Triplet 0 1 None; Triplet 1 2 None; Triplet 2 3 None; Triplet 3 0 None] [].
Example square_planar : planar square_array origin /\ placed eps0 square_array origin.
Proof.
  assert (ED : directions square_array origin = [P3 1 0 0; P3 0 1 0; P3 (-1) 0 0; P3 0 (-1) 0]).
  { unfold directions. cbn [square_array a_positions map]. repeat f_equal; [tw 1 (P3 1 0 0)|tw 1 (P3 0 1 0)|tw 1 (P3 (-1) 0 0)|tw 1 (P3 0 (-1) 0)]. }
  assert (EU : distance origin (P3 0 0 1) = 1 /\ towards origin (P3 0 0 1) = P3 0 0 1) by tw 1 (P3 0 0 1). destruct EU as [EU1 EU2].
  split; [repeat split; intros s [<-|[<-|[<-|[<-|[]]]]]; reflexivity|]. constructor.
  - intros s [<-|[<-|[<-|[<-|[]]]]].
    + assert (E : distance origin (P3 1 0 0) = 1) by tw 1 (P3 1 0 0). rewrite E. unfold eps0. lra.
    + assert (E : distance origin (P3 0 1 0) = 1) by tw 1 (P3 0 1 0). rewrite E. unfold eps0. lra.
    + assert (E : distance origin (P3 (-1) 0 0) = 1) by tw 1 (P3 (-1) 0 0). rewrite E. unfold eps0. lra.
    + assert (E : distance origin (P3 0 (-1) 0) = 1) by tw 1 (P3 0 (-1) 0). rewrite E. unfold eps0. lra.
  - intros _. rewrite EU1. unfold eps0. lra.
  - intros t [<-|[<-|[<-|[<-|[]]]]]; unfold legs; rewrite ED; cbn [t_1 t_2 t_3 nth_error square_array a_2D]; do 3 eexists;
      (split; [split; [reflexivity|split; [reflexivity|symmetry; exact EU2]]|unfold volume; cbn [px py pz]; lra]).
Qed.

Print Assumptions C58_direction_partial.
Print Assumptions C58_normalised_partial.
Print Assumptions C58_distance_partial.
Print Assumptions C58_triangulation_partial.
Print Assumptions C58_triplet_order_partial.
Print Assumptions C58_at_listener_refuted.
Print Assumptions C58_degenerate_refuted.
Print Assumptions C58_listener_off_plane_refuted.
Print Assumptions C58_infinite_array_refuted.
