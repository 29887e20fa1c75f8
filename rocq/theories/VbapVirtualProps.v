(** * C58, continued: virtual loudspeakers *)
From Verif Require Import Base QuaternionModel QuaternionProofs ListenerModel VbapModel VbapSpec VbapProofs VbapLaws VbapProps.
From Coq Require Import Reals Lra.
Local Open Scope R_scope.
Local Open Scope res_scope.

(** ** Specification *)
Fixpoint weighted (ws xs : list R) : R := match ws, xs with w :: ws', x :: xs' => w * x + weighted ws' xs' | _, _ => 0 end.
(** gain of a regular loudspeaker: its own and a share of the gain of every virtual loudspeaker *)
Definition rerouted (a : array) (raw : list R) (i : nat) : R :=
  nth i raw 0 + weighted (skipn (a_regular a) raw) (map (fun row => nth i row 0) (a_rerouting a)).
(** one row of coefficients for each virtual loudspeaker, one coefficient for each regular one *)
Definition rerouting_table (a : array) : Prop :=
  (a_regular a <= length (a_positions a))%nat /\ length (a_rerouting a) = (length (a_positions a) - a_regular a)%nat
  /\ forall row, In row (a_rerouting a) -> length row = a_regular a.
(** directions of the regular and of the virtual loudspeakers *)
Definition regular_directions (a : array) (l : pos3 R) : list (pos3 R) := firstn (a_regular a) (directions a l).
Definition virtual_directions (a : array) (l : pos3 R) : list (pos3 R) := skipn (a_regular a) (directions a l).
(** every virtual loudspeaker is rendered by regular ones that recreate its direction *)
Definition rendered (a : array) (l : pos3 R) : Prop :=
  map (fun row => total row (regular_directions a l)) (a_rerouting a) = virtual_directions a l.

(** ** Proofs *)
Lemma vset_length l l' i x : vset l i x = Ok l' -> length l' = length l.
Proof.
  unfold vset. destruct (Nat.ltb_spec i (length l)); [|discriminate]. intros E. apply Ok_inj in E. subst l'.
  rewrite app_length, firstn_length. cbn [length]. rewrite skipn_length. lia.
Qed.
Lemma plain_length v pos pw raw : calcPlainVBAP v pos pw = Ok raw -> length raw = length (a_positions (v_array v)).
Proof.
  unfold calcPlainVBAP. destruct (search _ _ _ _ _ _) as [[j [[g1 g2] g3]]|]; [|discriminate]. destruct (nth_error _ j) as [t|]; [|discriminate].
  intros E. destruct (vset (repeat 0 _) _ _) as [x| |] eqn:E1; try discriminate. cbn [bind] in E. destruct (vset x _ _) as [y| |] eqn:E2; try discriminate. cbn [bind] in E.
  apply vset_length in E1, E2. rewrite repeat_length in E1. destruct (a_2D _); [apply Ok_inj in E; subst y; congruence|]. destruct (t_3 t); [|discriminate]. apply vset_length in E. congruence.
Qed.
Lemma fold_share (rows : list (list R)) i : forall vs acc, length rows = length vs ->
  fold_left (fun g j => g + nth i (nth j rows []) 0 * nth j vs 0) (seq 0 (length vs)) acc = acc + weighted vs (map (fun row => nth i row 0) rows).
Proof.
  assert (F : forall (f : R -> nat -> R) l acc, fold_left f (map S l) acc = fold_left (fun g j => f g (S j)) l acc).
  { intros f l. induction l as [|x l IH]; intros acc; cbn [map fold_left]; [reflexivity|apply IH]. }
  induction rows as [|row rows IH]; intros [|v vs] acc L; try discriminate; [cbn; ring|]. cbn [length seq fold_left map weighted nth].
  rewrite <- seq_shift, F. cbn [nth]. rewrite IH by (cbn in L; lia). ring.
Qed.
Lemma rerouting_eq a raw i : rerouting_table a -> length raw = length (a_positions a) -> (i < a_regular a)%nat -> nth i (applyRerouting a raw) 0 = rerouted a raw i.
Proof.
  intros (B & L & _) LR I. unfold applyRerouting. set (f := fun i : nat => fold_left _ _ _). rewrite (nth_indep _ 0 (f 0%nat)) by (rewrite map_length, seq_length; exact I).
  rewrite map_nth, seq_nth by exact I. cbn [Nat.add]. unfold f, rerouted.
  assert (LS : length (skipn (a_regular a) raw) = (length (a_positions a) - a_regular a)%nat) by (rewrite skipn_length; lia).
  rewrite <- LS, <- fold_share by congruence. clear. assert (N : forall j, nth (a_regular a + j) raw 0 = nth j (skipn (a_regular a) raw) 0).
  { intros j. generalize (a_regular a) raw. induction n as [|n IH]; intros r; [reflexivity|]. destruct r; [now destruct j|]. cbn [Nat.add nth skipn]. apply IH. }
  generalize (seq 0 (length (skipn (a_regular a) raw))) (nth i raw 0). induction l as [|j l IH]; intros acc; cbn [fold_left]; [reflexivity|]. rewrite N. apply IH.
Qed.
Lemma applyRerouting_length a raw : length (applyRerouting a raw) = a_regular a.
Proof. unfold applyRerouting. now rewrite map_length, seq_length. Qed.

Lemma total_app gs : forall us gs' us', length gs = length us -> total (gs ++ gs') (us ++ us') = add3 (total gs us) (total gs' us').
Proof.
  induction gs as [|g gs IH]; intros [|u us] gs' us' L; try discriminate; cbn [app total].
  - unfold add3, zero3. cbn [px py pz]. destruct (total gs' us'). cbn. apply P3_eq; ring.
  - rewrite IH by (cbn in L; lia). now rewrite add3_assoc.
Qed.
Lemma total_shares f us (rows : list (list R)) : (forall row, In row rows -> length row = length us) -> forall vs, length vs = length rows ->
  total_at (fun i => f i + weighted vs (map (fun row => nth i row 0) rows)) us 0 = add3 (total_at f us 0) (total vs (map (fun row => total row us) rows)).
Proof.
  revert f. induction rows as [|row rows IH]; intros f H [|v vs] L; try discriminate.
  - cbn [map weighted total]. rewrite (total_at_ext _ f) by (intros; ring). unfold add3, zero3. cbn [px py pz]. destruct (total_at f us 0). cbn. apply P3_eq; ring.
  - cbn [map weighted total]. rewrite (total_at_ext _ (fun i => (f i + v * nth i row 0) + weighted vs (map (fun row => nth i row 0) rows))) by (intros; ring).
    rewrite (IH (fun i => f i + v * nth i row 0)) by (try (intros; apply H; now right); cbn in L; lia). rewrite total_at_add, add3_assoc. f_equal. f_equal.
    rewrite (total_nth row) by (apply H; now left).
    assert (S : forall us n, total_at (fun k => v * nth k row 0) us n = scale3 v (total_at (fun k => nth k row 0) us n)).
    { clear. induction us as [|u us IH]; intros n; cbn [total_at]; [unfold scale3, zero3; cbn; apply P3_eq; ring|]. rewrite IH, scale3_dist, scale3_scale. reflexivity. }
    apply S.
Qed.

(** ** Theorems *)
(** The gains without normalisation: every regular loudspeaker has its own gain and its share of
    the gains of the virtual loudspeakers. *)
Theorem C58_rerouting : forall v pos planeWave raw,
  rerouting_table (v_array v) -> calcPlainVBAP v pos planeWave = Ok raw ->
  exists g, calculateGainsUnNormalised v pos planeWave = Ok g /\ length g = a_regular (v_array v)
  /\ forall i, (i < a_regular (v_array v))%nat -> nth i g 0 = rerouted (v_array v) raw i.
Proof.
  intros v pos pw raw T E. exists (applyRerouting (v_array v) raw). unfold calculateGainsUnNormalised. rewrite E. cbn [bind]. split; [reflexivity|].
  split; [apply applyRerouting_length|]. intros i I. apply rerouting_eq; [exact T|now apply (plain_length v pos pw)|exact I].
Qed.

(** If the coefficients render every virtual loudspeaker from its direction, the regular
    loudspeakers recreate the source direction. *)
Theorem C58_virtual_direction_partial : forall epsilon a l pos planeWave v,
  0 < epsilon -> placed epsilon a l -> (a_2D a = false \/ planar a l) -> rerouting_table a -> rendered a l -> setListenerPosition epsilon a l = Ok v ->
  match calculateGainsUnNormalised v pos planeWave with
  | Ok g => length g = a_regular a /\ total g (regular_directions a l) = seen a l pos planeWave
  | Throw e => e = RuntimeError
  | UB => False
  end
  /\ forall g r, calculateGainsUnNormalised v pos planeWave = Ok g -> calculateGains epsilon v pos planeWave = Ok r ->
     exists k, 0 < k /\ r = map (fun x => k * x) g /\ total r (regular_directions a l) = scale3 k (seen a l pos planeWave)
     /\ (epsilon * epsilon <= power g -> power r = 1).
Proof.
  intros epsilon a l pos pw v He P K T Rd S.
  destruct (C58_direction_partial epsilon a l pos pw He P K) as (v' & S' & H). rewrite S in S'. apply Ok_inj in S'. subst v'.
  destruct (setListenerPosition_ok epsilon He a l P) as (v' & S' & VA & VL & _). rewrite S in S'. apply Ok_inj in S'. subst v'.
  assert (Q : forall g, calculateGainsUnNormalised v pos pw = Ok g -> length g = a_regular a /\ total g (regular_directions a l) = seen a l pos pw).
  { intros g. unfold calculateGainsUnNormalised. destruct (calcPlainVBAP v pos pw) as [raw|e|] eqn:E; try discriminate. cbn [bind]. rewrite VA. intros EG. apply Ok_inj in EG. subst g.
    rewrite applyRerouting_length. split; [reflexivity|]. destruct H as (L & TT & _). rewrite <- TT. pose proof T as (B & LR & LW).
    assert (LD : length (directions a l) = length (a_positions a)) by (unfold directions; apply map_length).
    assert (LF : length (regular_directions a l) = a_regular a) by (unfold regular_directions; rewrite firstn_length; lia).
    rewrite total_nth by (rewrite applyRerouting_length; now symmetry).
    rewrite (total_at_ext _ (rerouted a raw)) by (intros k Hk; apply rerouting_eq; [exact T|exact L|lia]).
    unfold rerouted. rewrite total_shares; [|intros row Hr; rewrite LF; now apply LW|rewrite skipn_length; lia].
    rewrite Rd. rewrite (total_at_ext _ (fun k => nth k (firstn (a_regular a) raw) 0)).
    2:{ intros k Hk. rewrite <- (firstn_skipn (a_regular a) raw) at 1. apply app_nth1. rewrite firstn_length. lia. }
    rewrite <- total_nth by (rewrite LF, firstn_length; lia). unfold regular_directions, virtual_directions.
    rewrite <- total_app by (rewrite !firstn_length; lia). now rewrite !firstn_skipn. }
  split.
  - destruct (calculateGainsUnNormalised v pos pw) as [g|e|] eqn:E; [now apply Q| |]; unfold calculateGainsUnNormalised in E;
      destruct (calcPlainVBAP v pos pw) as [raw|e'|]; try discriminate; [|exact H]. cbn [bind] in E. destruct H as [-> _]. congruence.
  - intros g r EG ER. destruct (Q g EG) as [LG TG]. unfold calculateGainsUnNormalised in EG. unfold calculateGains in ER. destruct (calcPlainVBAP v pos pw) as [raw|e|]; try discriminate.
    cbn [bind] in *. apply Ok_inj in EG, ER. rewrite EG in ER. subst r. unfold powerNormalisation at 1 2. eexists. split; [|split; [reflexivity|split]].
    + apply Rdiv_lt_0_compat; [lra|]. eapply Rlt_le_trans; [exact He|apply Rmax_r].
    + unfold powerNormalisation. rewrite total_scale. now rewrite TG.
    + intros L. now apply powerNormalisation_loud.
Qed.

(** ** A concrete case: the lowest loudspeaker is virtual and rendered by the upper one, so that
    sources below are heard from above *)
Definition half_tent : array := Array false false (a_positions tent) 3 (a_triplets tent) [[0; 0; 1]].
Example half_tent_gains : exists v, setListenerPosition eps0 half_tent here = Ok v
  /\ rerouting_table half_tent
  /\ calcPlainVBAP v (P3 2 2 (-2)) false = Ok [1; 2; 0; 2]
  /\ calculateGainsUnNormalised v (P3 2 2 (-2)) false = Ok [1; 2; 2].
Proof.
  assert (He : 0 < eps0) by (unfold eps0; lra).
  assert (PL : placed eps0 half_tent here) by (destruct tent_placed as [A B C]; constructor; [exact A|exact B|exact C]).
  destruct (setListenerPosition_ok eps0 He half_tent here PL) as (v & S & VA & _). exists v. split; [exact S|].
  split; [split; [cbn; lia|split; [reflexivity|intros row [<-|[]]; reflexivity]]|].
  assert (EP : calcPlainVBAP v (P3 2 2 (-2)) false = Ok [1; 2; 0; 2]).
  { apply (C58_triangulation_partial eps0 half_tent here (P3 2 2 (-2)) false v (Triplet 0 1 (Some 3%nat)) [1; 2; 0; 2] He eq_refl PL); [|exact S|right; now left|].
    - exact tent_triangulation.
    - split; [reflexivity|]. split; [|split].
      + intros [|[|[|[|[|]]]]]; cbn; lra.
      + intros [|[|[|[|k]]]]; unfold corner; cbn [nth t_1 t_2 t_3 half_tent a_2D]; intros H; [left; reflexivity|right; left; reflexivity|elim H; reflexivity|right; right; split; reflexivity|].
        destruct k; elim H; reflexivity.
      + change (directions half_tent here) with (directions tent here). rewrite tent_directions. unfold seen, total, add3, scale3, zero3. cbn [half_tent a_2D here px py pz]. apply P3_eq; ring. }
  split; [exact EP|]. unfold calculateGainsUnNormalised. rewrite EP. cbn [bind]. f_equal. rewrite VA. unfold applyRerouting, half_tent, tent. cbn [a_regular a_positions a_rerouting length Nat.sub seq map fold_left nth Nat.add].
  repeat apply cons_eq; try reflexivity; ring.
Qed.
(** A virtual loudspeaker midway between two regular ones and coefficients that render it *)
Definition gable : array := Array false false [P3 2 0 0; P3 1 3 0; P3 1 0 2; P3 1 0 (-5); P3 (8/5) (4/5) 0] 4
  [Triplet 0 4 (Some 2%nat); Triplet 4 1 (Some 2%nat)] [[3/5; 4/5; 0; 0]].
Example gable_rendered : placed eps0 gable here /\ rerouting_table gable /\ rendered gable here.
Proof.
  destruct tent_towards as (A & B & C & D). assert (E : distance here (P3 (8/5) (4/5) 0) = 1 /\ towards here (P3 (8/5) (4/5) 0) = P3 (3/5) (4/5) 0) by tw 1 (P3 (3/5) (4/5) 0).
  destruct E as [E1 E2].
  assert (ED : directions gable here = [P3 1 0 0; P3 0 1 0; P3 0 0 1; P3 0 0 (-1); P3 (3/5) (4/5) 0]) by (unfold directions; cbn [gable a_positions map]; now rewrite A, B, C, D, E2).
  split; [|split; [split; [cbn; lia|split; [reflexivity|intros row [<-|[]]; reflexivity]]|]].
  - constructor.
    + intros s Hs. cbn [gable a_positions In] in Hs. destruct Hs as [H|[H|[H|[H|[<-|[]]]]]]; [apply (pl_far _ _ _ tent_placed); left; exact H|apply (pl_far _ _ _ tent_placed); right; left; exact H|apply (pl_far _ _ _ tent_placed); right; right; left; exact H|apply (pl_far _ _ _ tent_placed); right; right; right; left; exact H|].
      rewrite E1. unfold eps0. lra.
    + discriminate.
    + intros t [<-|[<-|[]]]; unfold legs; rewrite ED; cbn [t_1 t_2 t_3 nth_error gable a_2D].
      * exists (P3 1 0 0), (P3 (3/5) (4/5) 0), (P3 0 0 1). split; [split; [reflexivity|split; [reflexivity|exists 2%nat; now split]]|]. unfold volume. cbn [px py pz]. lra.
      * exists (P3 (3/5) (4/5) 0), (P3 0 1 0), (P3 0 0 1). split; [split; [reflexivity|split; [reflexivity|exists 2%nat; now split]]|]. unfold volume. cbn [px py pz]. lra.
  - unfold rendered, regular_directions, virtual_directions. rewrite ED. cbn [gable a_regular a_rerouting firstn skipn map]. f_equal.
    unfold total, add3, scale3, zero3. cbn [px py pz]. apply P3_eq; ring.
Qed.

Print Assumptions C58_rerouting.
Print Assumptions C58_virtual_direction_partial.
