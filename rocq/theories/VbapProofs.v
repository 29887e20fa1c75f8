(** Lemmas about vector base amplitude panning. *)
From Verif Require Import Base QuaternionModel QuaternionProofs ListenerModel VbapModel VbapSpec.
From Coq Require Import Reals Lra.
Local Open Scope R_scope.
Local Open Scope res_scope.


Lemma P3_eq (a b c a' b' c' : R) : a = a' -> b = b' -> c = c' -> P3 a b c = P3 a' b' c'.
Proof. now intros -> -> ->. Qed.

Definition coords (i : inverse) (p : pos3 R) : R * R * R := (Rdot p (i_1 i), Rdot p (i_2 i), Rdot p (i_3 i)).
Lemma inverse_sound u v w p : volume u v w <> 0 -> comb (coords (inv_matrix u v w) p) u v w = p.
Proof.
  destruct u as [a b c], v as [d e f], w as [g h i], p as [x y z]. unfold volume, coords, comb, inv_matrix, combine3, add3, scale3, Rdot. cbn [px py pz].
  intros V. destruct (Req_EM_T _ 0) as [E|_]; [now elim V|]. cbn [i_1 i_2 i_3 fst snd px py pz]. apply P3_eq; field; exact V.
Qed.
Lemma inverse_complete u v w x y z : volume u v w <> 0 -> coords (inv_matrix u v w) (combine3 x y z u v w) = (x, y, z).
Proof.
  destruct u as [a b c], v as [d e f], w as [g h i]. unfold volume, coords, inv_matrix, combine3, add3, scale3, Rdot. cbn [px py pz].
  intros V. destruct (Req_EM_T _ 0) as [E|_]; [now elim V|]. cbn [i_1 i_2 i_3 px py pz]. f_equal; [f_equal|]; field; exact V.
Qed.
Lemma comb_unique u v w g g' : volume u v w <> 0 -> comb g u v w = comb g' u v w -> g = g'.
Proof.
  destruct g as [[x y] z], g' as [[x' y'] z']. unfold comb. cbn [fst snd]. intros V E.
  pose proof (inverse_complete u v w x y z V) as A. rewrite E, (inverse_complete u v w _ _ _ V) in A. now rewrite A.
Qed.

(** *** The search *)
Lemma Rltb_lt x y : Rltb x y = true <-> x < y.
Proof. unfold Rltb. destruct (Rlt_dec x y); split; intros; try lra; try reflexivity; discriminate. Qed.
Lemma Rltb_nlt x y : Rltb x y = false <-> y <= x.
Proof. unfold Rltb. destruct (Rlt_dec x y); split; intros; try lra; try reflexivity; discriminate. Qed.
Lemma Rleb_le x y : Rleb x y = true <-> x <= y.
Proof. unfold Rleb. destruct (Rle_dec x y); split; intros; try lra; try reflexivity; discriminate. Qed.
Lemma Rleb_nle x y : Rleb x y = false <-> y < x.
Proof. unfold Rleb. destruct (Rle_dec x y); split; intros; try lra; try reflexivity; discriminate. Qed.

Definition insideb (is2D : bool) (g : R * R * R) : bool := Rleb 0 (fst (fst g)) && Rleb 0 (snd (fst g)) && (Rleb 0 (snd g) || is2D).
Lemma insideb_iff is2D g : insideb is2D g = true <-> inside_cone is2D g.
Proof.
  unfold insideb, inside_cone. rewrite !andb_true_iff, orb_true_iff, !Rleb_le. tauto.
Qed.

Fixpoint search' (is2D : bool) (gs : list (R * R * R)) (j : nat) (best : option (nat * (R * R * R))) : option (nat * (R * R * R)) :=
  match gs with
  | [] => best
  | g :: rest =>
      if insideb is2D g then Some (j, g)
      else if Nat.leb (negatives g) 1 && match best with None => true | Some (_, b) => Rltb (min3 b) (min3 g) end
      then search' is2D rest (S j) (Some (j, g)) else search' is2D rest (S j) best
  end.
Lemma search_eq is2D p inv : forall j best gmin,
  match best with Some (_, b) => gmin = min3 b | None => True end ->
  search is2D p inv j best gmin = search' is2D (map (fun i => coords i p) inv) j best.
Proof.
  induction inv as [|i inv IH]; intros j best gmin H; [reflexivity|]. cbn [search map search']. unfold insideb. cbn [coords fst snd].
  fold (Rdot p (i_1 i)) (Rdot p (i_2 i)) (Rdot p (i_3 i)). set (g1 := Rdot p (i_1 i)). set (g2 := Rdot p (i_2 i)). set (g3 := Rdot p (i_3 i)).
  destruct (Rleb 0 g1 && Rleb 0 g2 && (Rleb 0 g3 || is2D)); [reflexivity|].
  assert (M : (if Rltb g3 (if Rltb g2 g1 then g2 else g1) then g3 else if Rltb g2 g1 then g2 else g1) = min3 (g1, g2, g3)).
  { unfold min3. cbn [fst snd]. clearbody g1 g2 g3. clear. unfold Rltb, Rmin. destruct (Rlt_dec g2 g1), (Rle_dec g2 g3);
    repeat match goal with |- context [Rlt_dec ?a ?b] => destruct (Rlt_dec a b) | |- context [Rle_dec ?a ?b] => destruct (Rle_dec a b) end; lra. }
  assert (C : match best with None => true | Some _ => Rltb gmin g1 && Rltb gmin g2 && Rltb gmin g3 end
            = match best with None => true | Some (_, b) => Rltb (min3 b) (min3 (g1, g2, g3)) end).
  { destruct best as [[k b]|]; [|reflexivity]. subst gmin. apply eq_true_iff_eq. rewrite !andb_true_iff, !Rltb_lt.
    unfold min3 at 4. cbn [fst snd]. split.
    - intros [[A B] D]. apply Rmin_glb_lt; [exact A|]. now apply Rmin_glb_lt.
    - intros A. pose proof (Rmin_l g1 (Rmin g2 g3)). pose proof (Rmin_r g1 (Rmin g2 g3)). pose proof (Rmin_l g2 g3). pose proof (Rmin_r g2 g3).
      unfold min3 in *. cbn [fst snd] in *. lra. }
  rewrite C. clear C. change (coords i p) with (g1, g2, g3). destruct (Nat.leb (negatives (g1, g2, g3)) 1 && _).
  - apply IH. exact M.
  - now apply IH.
Qed.
(** result of the search *)
Definition chosen (is2D : bool) (gs : list (R * R * R)) (r : option (nat * (R * R * R))) : Prop :=
  match r with
  | None => forall g, In g gs -> ~ inside_cone is2D g /\ ~ candidate g
  | Some (k, g) => nth_error gs k = Some g
      /\ ((inside_cone is2D g /\ forall k' g', (k' < k)%nat -> nth_error gs k' = Some g' -> ~ inside_cone is2D g')
          \/ ((forall g', In g' gs -> ~ inside_cone is2D g') /\ candidate g
              /\ forall k' g', nth_error gs k' = Some g' -> candidate g' -> min3 g' <= min3 g /\ ((k' < k)%nat -> min3 g' < min3 g)))
  end.
Definition best_so_far (is2D : bool) (gs : list (R * R * R)) (r : option (nat * (R * R * R))) : Prop :=
  (forall g', In g' gs -> ~ inside_cone is2D g')
  /\ match r with
     | None => forall g, In g gs -> ~ candidate g
     | Some (k, g) => nth_error gs k = Some g /\ candidate g
        /\ forall k' g', nth_error gs k' = Some g' -> candidate g' -> min3 g' <= min3 g /\ ((k' < k)%nat -> min3 g' < min3 g)
     end.
Lemma nth_error_snoc {A} (l : list A) x k y : nth_error (l ++ [x]) k = Some y -> nth_error l k = Some y \/ (k = length l /\ y = x).
Proof.
  intros H. destruct (Nat.lt_trichotomy k (length l)) as [L|[L|L]].
  - left. now rewrite nth_error_app1 in H.
  - right. split; [exact L|]. subst k. rewrite nth_error_app2, Nat.sub_diag in H by lia. cbn in H. congruence.
  - rewrite nth_error_app2 in H by lia. destruct (k - length l)%nat eqn:E; [lia|]. cbn in H. destruct n; discriminate.
Qed.
Lemma candidate_iff g : candidate g <-> Nat.leb (negatives g) 1 = true.
Proof.
  destruct g as [[x y] z]. unfold candidate, negatives, Rltb. cbn [fst snd].
  destruct (Rlt_dec x 0), (Rlt_dec y 0), (Rlt_dec z 0); cbn; split; intros; try discriminate; try reflexivity; try lra; intuition lra.
Qed.
Lemma search_chosen is2D : forall gs pre best, best_so_far is2D pre best -> chosen is2D (pre ++ gs) (search' is2D gs (length pre) best).
Proof.
  induction gs as [|g gs IH]; intros pre best [N B].
  - rewrite app_nil_r. cbn [search']. destruct best as [[k b]|]; cbn [chosen].
    + destruct B as (B1 & B2 & B3). split; [exact B1|]. right. split; [exact N|]. split; [exact B2|exact B3].
    + intros g Hg. split; [now apply N|now apply B].
  - cbn [search']. destruct (insideb is2D g) eqn:EI.
    + apply insideb_iff in EI. cbn [chosen]. split; [rewrite nth_error_app2, Nat.sub_diag by lia; reflexivity|]. left. split; [exact EI|].
      intros k' g' L H. apply N. rewrite nth_error_app1 in H by exact L. now apply nth_error_In in H.
    + assert (NI : ~ inside_cone is2D g) by (rewrite <- insideb_iff; congruence).
      assert (N' : forall g', In g' (pre ++ [g]) -> ~ inside_cone is2D g').
      { intros g' H. apply in_app_or in H as [H|[<-|[]]]; [now apply N|exact NI]. }
      replace (pre ++ g :: gs) with ((pre ++ [g]) ++ gs) by now rewrite <- app_assoc.
      assert (L : S (length pre) = length (pre ++ [g])) by (rewrite app_length; cbn; lia). rewrite L.
      destruct (Nat.leb (negatives g) 1) eqn:EC; cbn [andb].
      * apply candidate_iff in EC. destruct best as [[k b]|].
        -- destruct B as (B1 & B2 & B3). destruct (Rltb (min3 b) (min3 g)) eqn:EL.
           ++ apply Rltb_lt in EL. apply IH. split; [exact N'|]. split; [rewrite nth_error_app2, Nat.sub_diag by lia; reflexivity|]. split; [exact EC|].
              intros k' g' H C. apply nth_error_snoc in H as [H|[-> ->]]; [|split; [lra|lia]].
              destruct (B3 k' g' H C) as [Q _]. split; [lra|intros; lra].
           ++ apply Rltb_nlt in EL. apply IH. split; [exact N'|]. split; [now rewrite nth_error_app1 by (apply nth_error_Some; congruence)|]. split; [exact B2|].
              intros k' g' H C. apply nth_error_snoc in H as [H|[-> ->]]; [now apply B3|]. split; [exact EL|].
              intros Q. assert (k < length pre)%nat by (apply nth_error_Some; congruence). lia.
        -- apply IH. split; [exact N'|]. split; [rewrite nth_error_app2, Nat.sub_diag by lia; reflexivity|]. split; [exact EC|].
           intros k' g' H C. apply nth_error_snoc in H as [H|[-> ->]]; [|split; [lra|lia]]. apply nth_error_In in H. now elim (B g' H).
      * assert (EC' : ~ candidate g) by (rewrite candidate_iff; congruence). apply IH. split; [exact N'|]. destruct best as [[k b]|].
        -- destruct B as (B1 & B2 & B3). split; [now rewrite nth_error_app1 by (apply nth_error_Some; congruence)|]. split; [exact B2|].
           intros k' g' H C. apply nth_error_snoc in H as [H|[-> ->]]; [now apply B3|]. now elim EC'.
        -- intros g' H. apply in_app_or in H as [H|[<-|[]]]; [now apply B|exact EC'].
Qed.
Lemma search_result is2D p inv : chosen is2D (map (fun i => coords i p) inv) (search is2D p inv 0 None 0).
Proof.
  rewrite search_eq by exact I. apply (search_chosen is2D _ [] None). split; [intros g []|intros g []].
Qed.

(** *** Lists *)

Lemma vset_ok v i x : (i < length v)%nat ->
  exists v', vset v i x = Ok v' /\ length v' = length v /\ forall k, nth k v' 0 = if Nat.eqb k i then x else nth k v 0.
Proof.
  intros H. unfold vset. apply Nat.ltb_lt in H as H'. rewrite H'. eexists. split; [reflexivity|].
  assert (LF : length (firstn i v) = i) by (rewrite firstn_length; lia). split.
  - rewrite app_length, LF. cbn [length]. rewrite skipn_length. lia.
  - intros k. destruct (Nat.eqb_spec k i) as [->|N].
    + rewrite app_nth2 by lia. now rewrite LF, Nat.sub_diag.
    + rewrite <- (firstn_skipn i v) at 3. destruct (Nat.lt_ge_cases k i).
      * rewrite !app_nth1 by lia. reflexivity.
      * rewrite !app_nth2 by lia. rewrite LF. destruct (k - i)%nat as [|d] eqn:E; [lia|]. cbn [nth].
        rewrite <- (firstn_skipn 1 (skipn i v)) at 1. rewrite app_nth2; rewrite firstn_length, skipn_length; [|lia].
        replace (S d - Nat.min 1 (length v - i))%nat with d by lia. f_equal.
        clear. revert v. induction i as [|i IH]; intros v; [now destruct v|]. destruct v; [reflexivity|]. cbn [skipn]. apply IH.
Qed.

Fixpoint total_at (gain : nat -> R) (us : list (pos3 R)) (n : nat) : pos3 R :=
  match us with [] => zero3 | u :: us' => add3 (scale3 (gain n) u) (total_at gain us' (S n)) end.
Lemma total_nth gains us : length gains = length us -> total gains us = total_at (fun k => nth k gains 0) us 0.
Proof.
  assert (E : forall us gains pre, length gains = length us -> total gains us = total_at (fun k => nth k (pre ++ gains) 0) us (length pre)).
  { clear. induction us as [|u us IH]; intros [|g gs] pre H; try discriminate; [reflexivity|]. cbn [total total_at]. f_equal.
    - f_equal. now rewrite app_nth2, Nat.sub_diag by lia.
    - rewrite (IH gs (pre ++ [g])) by (cbn in H; lia). rewrite app_length, <- app_assoc. cbn [length app]. now rewrite Nat.add_1_r. }
  intros H. now apply (E us gains []).
Qed.
Lemma add3_zero a : add3 zero3 a = a. Proof. destruct a. unfold add3, zero3. cbn. apply P3_eq; ring. Qed.
Lemma add3_zero_r a : add3 a zero3 = a. Proof. destruct a. unfold add3, zero3. cbn. apply P3_eq; ring. Qed.
Lemma add3_comm a b : add3 a b = add3 b a. Proof. destruct a, b. unfold add3. cbn. apply P3_eq; ring. Qed.
Lemma add3_assoc a b c : add3 a (add3 b c) = add3 (add3 a b) c. Proof. destruct a, b, c. unfold add3. cbn. apply P3_eq; ring. Qed.
Lemma scale3_0 a : scale3 0 a = zero3. Proof. destruct a. unfold scale3, zero3. cbn. apply P3_eq; ring. Qed.
Lemma scale3_add x y a : scale3 (x + y) a = add3 (scale3 x a) (scale3 y a). Proof. destruct a. unfold scale3, add3. cbn. apply P3_eq; ring. Qed.
Lemma scale3_scale x y a : scale3 x (scale3 y a) = scale3 (x * y) a. Proof. destruct a. unfold scale3. cbn. apply P3_eq; ring. Qed.
Lemma scale3_dist x a b : scale3 x (add3 a b) = add3 (scale3 x a) (scale3 x b). Proof. destruct a, b. unfold scale3, add3. cbn. apply P3_eq; ring. Qed.
Lemma total_at_add f g us : forall n, total_at (fun k => f k + g k) us n = add3 (total_at f us n) (total_at g us n).
Proof.
  induction us as [|u us IH]; intros n; cbn [total_at]; [now rewrite add3_zero|]. rewrite IH, scale3_add.
  rewrite !add3_assoc. f_equal. rewrite <- !add3_assoc. f_equal. apply add3_comm.
Qed.
Lemma total_at_ext f g us : forall n, (forall k, (n <= k < n + length us)%nat -> f k = g k) -> total_at f us n = total_at g us n.
Proof.
  induction us as [|u us IH]; intros n H; cbn [total_at]; [reflexivity|]. rewrite H by (cbn; lia). f_equal. apply IH. intros k Hk. apply H. cbn. lia.
Qed.
Lemma total_at_single i x us : forall n, total_at (fun k => if Nat.eqb k i then x else 0) us n
  = match (if Nat.leb n i then nth_error us (i - n) else None) with Some u => scale3 x u | None => zero3 end.
Proof.
  induction us as [|u us IH]; intros n; cbn [total_at].
  - destruct (Nat.leb n i); [|reflexivity]. now destruct (i - n)%nat.
  - rewrite IH. destruct (Nat.eqb_spec n i) as [->|N].
    + rewrite Nat.leb_refl, Nat.sub_diag. cbn [nth_error]. destruct (Nat.leb_spec (S i) i); [lia|]. now rewrite add3_zero_r.
    + rewrite scale3_0, add3_zero. destruct (Nat.leb_spec (S n) i), (Nat.leb_spec n i); try lia; [|reflexivity].
      replace (i - n)%nat with (S (i - S n)) by lia. reflexivity.
Qed.
Lemma total_scale k gains : forall us, total (map (fun g => k * g) gains) us = scale3 k (total gains us).
Proof.
  induction gains as [|g gs IH]; intros us; [cbn; unfold scale3, zero3; cbn; apply P3_eq; ring|]. destruct us as [|u us]; cbn [map total].
  - unfold scale3, zero3. cbn. apply P3_eq; ring.
  - now rewrite IH, scale3_dist, scale3_scale.
Qed.
Lemma power_eq gains : fold_left (fun acc val => acc + val * val) gains 0 = power gains.
Proof.
  assert (E : forall gs a, fold_left (fun acc val => acc + val * val) gs a = a + power gs).
  { induction gs as [|g gs IH]; intros a; cbn [fold_left power fold_right]; [ring|]. rewrite IH. unfold power. ring. }
  rewrite E. ring.
Qed.
Lemma power_nonneg gains : 0 <= power gains.
Proof. induction gains as [|g gs IH]; cbn [power fold_right]; [lra|]. unfold power in IH. nra. Qed.
Lemma power_scale k gains : power (map (fun g => k * g) gains) = k * k * power gains.
Proof. induction gains as [|g gs IH]; cbn [map power fold_right]; [ring|]. unfold power in *. rewrite IH. ring. Qed.

Section Vbap.
  Variable epsilon : R.
  Hypothesis Heps : 0 < epsilon.

  Lemma normalise_towards l s : epsilon <= distance l s -> normalise epsilon (Rpsub s l) = towards l s.
  Proof using Heps.
    unfold distance, towards, norm3, normalise, Rpsub. cbn [px py pz]. intros H. apply Rleb_le in H as E. rewrite E.
    unfold scale3. cbn [px py pz]. apply P3_eq; field; lra.
  Qed.
  Lemma position_direction a l i u : nth_error (directions a l) i = Some u ->
    exists s, position (a_positions a) i = Ok s /\ In s (a_positions a) /\ u = towards l s.
  Proof using.
    unfold directions, position. rewrite nth_error_map. destruct (nth_error (a_positions a) i) as [s|] eqn:E; [|discriminate].
    intros H. apply Some_inj in H. exists s. repeat split; [now apply nth_error_In in E|now symmetry].
  Qed.
  Lemma triplet_inverse_ok a l t u v w : placed epsilon a l -> legs a l t u v w -> triplet_inverse epsilon a l t = Ok (inv_matrix u v w).
  Proof using Heps.
    intros P (H1 & H2 & H3). apply position_direction in H1 as (s1 & E1 & I1 & ->). apply position_direction in H2 as (s2 & E2 & I2 & ->).
    unfold triplet_inverse. rewrite E1, E2. cbn [bind]. destruct (a_2D a) eqn:ED.
    - cbn [bind]. subst w. rewrite !normalise_towards; [reflexivity|now apply (pl_up epsilon a l P)|now apply (pl_far epsilon a l P)..].
    - destruct H3 as (i3 & T & H3). apply position_direction in H3 as (s3 & E3 & I3 & ->). rewrite T, E3. cbn [bind].
      rewrite !normalise_towards by now apply (pl_far epsilon a l P). reflexivity.
  Qed.
  Lemma inverses_ok a l ts : placed epsilon a l -> (forall t, In t ts -> In t (a_triplets a)) ->
    exists inv, map_res (triplet_inverse epsilon a l) ts = Ok inv
      /\ Forall2 (fun t i => exists u v w, legs a l t u v w /\ volume u v w <> 0 /\ i = inv_matrix u v w) ts inv.
  Proof using Heps.
    intros P. induction ts as [|t ts IH]; intros H; [exists []; split; [reflexivity|constructor]|].
    destruct IH as (inv & E & F); [intros; apply H; now right|]. destruct (pl_legs epsilon a l P t) as (u & v & w & L & V); [apply H; now left|].
    exists (inv_matrix u v w :: inv). cbn [map_res]. rewrite (triplet_inverse_ok a l t u v w P L). cbn [bind]. rewrite E. cbn [bind].
    split; [reflexivity|]. constructor; [|exact F]. exists u, v, w. repeat split; [apply L|apply L|apply L|exact V].
  Qed.
  Lemma legs_unique a l t u v w u' v' w' : legs a l t u v w -> legs a l t u' v' w' -> u = u' /\ v = v' /\ w = w'.
  Proof using.
    intros (A & B & C) (A' & B' & C'). split; [congruence|]. split; [congruence|]. destruct (a_2D a); [congruence|].
    destruct C as (i & T & C), C' as (i' & T' & C'). congruence.
  Qed.

  Lemma legs_distinct a l t : placed epsilon a l -> In t (a_triplets a) -> t_1 t <> t_2 t
    /\ (a_2D a = false -> forall i3, t_3 t = Some i3 -> t_1 t <> i3 /\ t_2 t <> i3).
  Proof using.
    intros P T. destruct (pl_legs epsilon a l P t T) as (u & v & w & (A & B & C) & V).
    split; [intros E; apply V; rewrite E in A; rewrite A in B; apply Some_inj in B; subst v; unfold volume; ring|].
    intros D i3 T3. rewrite D in C. destruct C as (i & T' & C). rewrite T3 in T'. apply Some_inj in T'. subst i.
    split; intros E; apply V; subst i3.
    - rewrite A in C. apply Some_inj in C. subst w. unfold volume. ring.
    - rewrite B in C. apply Some_inj in C. subst w. unfold volume. ring.
  Qed.
  Lemma coordinates_unique a l t p g g' : placed epsilon a l -> In t (a_triplets a) -> coordinates a l t p g -> coordinates a l t p g' -> g = g'.
  Proof using.
    intros P T (u & v & w & L & E) (u' & v' & w' & L' & E'). destruct (legs_unique _ _ _ _ _ _ _ _ _ L L') as (<- & <- & <-).
    destruct (pl_legs epsilon a l P t T) as (u' & v' & w' & L'' & V). destruct (legs_unique _ _ _ _ _ _ _ _ _ L L'') as (<- & <- & <-).
    apply (comb_unique u v w); [exact V|congruence].
  Qed.
  Lemma coordinates_exist a l t p : placed epsilon a l -> In t (a_triplets a) -> exists g, coordinates a l t p g.
  Proof using.
    intros P T. destruct (pl_legs epsilon a l P t T) as (u & v & w & L & V). exists (coords (inv_matrix u v w) p). exists u, v, w.
    split; [exact L|]. symmetry. now apply inverse_sound.
  Qed.

  Lemma setListenerPosition_ok a l : placed epsilon a l -> exists v, setListenerPosition epsilon a l = Ok v
    /\ v_array v = a /\ v_listener v = l
    /\ forall p, Forall2 (fun t g => coordinates a l t p g) (a_triplets a) (map (fun i => coords i p) (v_inverse v)).
  Proof using Heps.
    intros P. destruct (inverses_ok a l (a_triplets a) P) as (inv & E & F); [auto|]. unfold setListenerPosition. rewrite E. cbn [bind].
    eexists. split; [reflexivity|]. cbn [v_array v_listener v_inverse]. repeat split. intros p.
    clear E. induction F as [|t i ts inv' (u & v & w & L & V & ->) F IH]; [constructor|]. cbn [map]. constructor; [|exact IH].
    exists u, v, w. split; [exact L|]. symmetry. now apply inverse_sound.
  Qed.

  Lemma Forall2_nth {A B} (Q : A -> B -> Prop) l l' k y : Forall2 Q l l' -> nth_error l' k = Some y -> exists x, nth_error l k = Some x /\ Q x y.
  Proof using. intros F. revert k. induction F as [|a b la lb Hab F IH]; intros [|k] E; try discriminate; cbn in *; [apply Some_inj in E; subst; eauto|eauto]. Qed.
  Lemma Forall2_nth' {A B} (Q : A -> B -> Prop) l l' k x : Forall2 Q l l' -> nth_error l k = Some x -> exists y, nth_error l' k = Some y /\ Q x y.
  Proof using. intros F. revert k. induction F as [|a b la lb Hab F IH]; intros [|k] E; try discriminate; cbn in *; [apply Some_inj in E; subst; eauto|eauto]. Qed.

  Lemma represents_unique a t g gain gain' : represents a t g gain -> represents a t g gain' -> gain = gain'.
  Proof using. intros [L E] [L' E']. apply (nth_ext _ _ 0 0); [congruence|]. intros k _. now rewrite E, E'. Qed.

  Lemma nth_repeat0 n k : nth k (repeat 0 n) 0 = 0.
  Proof using. revert k. induction n; intros [|k]; cbn; auto. Qed.
  Lemma legs_bound a l t u v w : legs a l t u v w -> (t_1 t < length (a_positions a))%nat /\ (t_2 t < length (a_positions a))%nat
    /\ (a_2D a = false -> exists i3, t_3 t = Some i3 /\ (i3 < length (a_positions a))%nat).
  Proof using.
    assert (Q : forall i x, nth_error (directions a l) i = Some x -> (i < length (a_positions a))%nat).
    { intros i x H. unfold directions in H. erewrite <- map_length. apply nth_error_Some. rewrite H. discriminate. }
    intros (A & B & C). split; [now apply Q in A|]. split; [now apply Q in B|]. intros E. rewrite E in C. destruct C as (i & T & C).
    exists i. split; [exact T|]. now apply Q in C.
  Qed.

  Lemma plain_spec a l pos pw v : placed epsilon a l -> setListenerPosition epsilon a l = Ok v ->
    match calcPlainVBAP v pos pw with
    | Ok gain => exists t g, In t (a_triplets a) /\ coordinates a l t (seen a l pos pw) g /\ represents a t g gain
                   /\ selects a l (seen a l pos pw) t g
    | Throw e => e = RuntimeError /\ forall t g, In t (a_triplets a) -> coordinates a l t (seen a l pos pw) g -> ~ inside_cone (a_2D a) g /\ ~ candidate g
    | UB => False
    end.
  Proof using Heps.
    intros P S. destruct (setListenerPosition_ok a l P) as (v' & S' & EA & EL & F). rewrite S in S'. apply Ok_inj in S'. subst v'.
    specialize (F (seen a l pos pw)). unfold calcPlainVBAP. rewrite EA, EL.
    change (if a_2D a then P3 (px (if pw then pos else Rpsub pos l)) (py (if pw then pos else Rpsub pos l)) 0 else if pw then pos else Rpsub pos l) with (seen a l pos pw). pose proof (search_result (a_2D a) (seen a l pos pw) (v_inverse v)) as C.
    set (gs := map _ _) in *. destruct (search _ _ _ _ _ _) as [[j g]|]; cbn [chosen] in C.
    - destruct C as [N C]. destruct (Forall2_nth _ _ _ _ _ F N) as (t & Nt & Ht). rewrite Nt. destruct g as [[g1 g2] g3].
      pose proof (nth_error_In _ _ Nt) as T. assert (L := Ht). destruct L as (u & w & x & L & _). destruct (legs_bound _ _ _ _ _ _ L) as (B1 & B2 & B3).
      destruct (legs_distinct a l t P T) as [D12 D3].
      assert (Z := nth_repeat0 (length (a_positions a))). set (zs := repeat 0 _) in *. assert (LZ : length zs = length (a_positions a)) by apply repeat_length.
      destruct (vset_ok zs (t_1 t) g1) as (z1 & E1 & L1 & N1); [congruence|]. rewrite E1. cbn [bind].
      destruct (vset_ok z1 (t_2 t) g2) as (z2 & E2 & L2 & N2); [congruence|]. rewrite E2. cbn [bind].
      assert (SEL : selects a l (seen a l pos pw) t (g1, g2, g3)).
      { destruct C as [[I _]|(NI & Cd & M)]; [now left|right]. repeat split; [|exact Cd|].
        - intros t' g' T' C'. apply NI. apply In_nth_error in T' as (k & Hk). destruct (Forall2_nth' _ _ _ _ _ F Hk) as (g'' & Hg & C'').
          apply nth_error_In in Hk. rewrite (coordinates_unique a l t' _ g' g'' P Hk C' C''). now apply nth_error_In in Hg.
        - intros t' g' T' C' Cd'. apply In_nth_error in T' as (k & Hk). destruct (Forall2_nth' _ _ _ _ _ F Hk) as (g'' & Hg & C'').
          apply nth_error_In in Hk. rewrite (coordinates_unique a l t' _ g' g'' P Hk C' C'') in *. now apply (M k g''). }
      destruct (a_2D a) eqn:ED.
      + exists t, (g1, g2, g3). split; [exact T|]. split; [exact Ht|]. split; [|exact SEL].
        split; [congruence|]. intros k. rewrite N2, N1, Z. unfold gain_of. rewrite ED. cbn [fst snd].
        destruct (Nat.eqb_spec k (t_1 t)), (Nat.eqb_spec k (t_2 t)); try congruence; now destruct (t_3 t).
      + destruct (B3 eq_refl) as (i3 & T3 & Bi). rewrite T3. destruct (D3 eq_refl i3 T3) as [D13 D23].
        destruct (vset_ok z2 i3 g3) as (z3 & E3 & L3 & N3); [congruence|]. rewrite E3.
        exists t, (g1, g2, g3). split; [exact T|]. split; [exact Ht|]. split; [|exact SEL].
        split; [congruence|]. intros k. rewrite N3, N2, N1, Z. unfold gain_of. rewrite ED, T3. cbn [fst snd].
        destruct (Nat.eqb_spec k (t_1 t)), (Nat.eqb_spec k (t_2 t)), (Nat.eqb_spec k i3); congruence.
    - split; [reflexivity|]. intros t g T Cg. apply C. apply In_nth_error in T as (k & Hk). destruct (Forall2_nth' _ _ _ _ _ F Hk) as (g'' & Hg & C'').
      apply nth_error_In in Hk. rewrite (coordinates_unique a l t _ g g'' P Hk Cg C''). now apply nth_error_In in Hg.
  Qed.

  (** the gains of a triplet recreate the vector *)
  Lemma represents_total a l t g gain u v w : placed epsilon a l -> In t (a_triplets a) -> legs a l t u v w -> represents a t g gain ->
    total gain (directions a l) = if a_2D a then combine3 (fst (fst g)) (snd (fst g)) 0 u v w else comb g u v w.
  Proof using.
    intros P T L [LG N]. destruct (legs_distinct a l t P T) as [D12 D3]. destruct g as [[g1 g2] g3].
    rewrite total_nth by (unfold directions; now rewrite map_length).
    rewrite (total_at_ext _ (fun k => (if Nat.eqb k (t_1 t) then g1 else 0) + ((if Nat.eqb k (t_2 t) then g2 else 0)
              + match a_2D a, t_3 t with false, Some i => if Nat.eqb k i then g3 else 0 | _, _ => 0 end))).
    2:{ intros k _. rewrite N. unfold gain_of. cbn [fst snd]. destruct (a_2D a) eqn:ED.
        - destruct (Nat.eqb_spec k (t_1 t)), (Nat.eqb_spec k (t_2 t)); try congruence; lra.
        - destruct (t_3 t) as [i3|] eqn:T3.
          + destruct (D3 eq_refl i3 eq_refl) as [D13 D23]. destruct (Nat.eqb_spec k (t_1 t)), (Nat.eqb_spec k (t_2 t)), (Nat.eqb_spec k i3); try congruence; lra.
          + destruct (Nat.eqb_spec k (t_1 t)), (Nat.eqb_spec k (t_2 t)); try congruence; lra. }
    rewrite total_at_add, (total_at_add (fun k => if Nat.eqb k (t_2 t) then g2 else 0)), !total_at_single. cbn [Nat.leb]. rewrite !Nat.sub_0_r.
    destruct L as (A & B & C). rewrite A, B. unfold comb, combine3. cbn [fst snd]. destruct (a_2D a); f_equal; f_equal.
    - rewrite (total_at_ext _ (fun k => if Nat.eqb k 0 then 0 else 0)) by (intros k _; now destruct (Nat.eqb k 0)).
      rewrite total_at_single, scale3_0. cbn [Nat.leb]. destruct (nth_error (directions a l) (0 - 0)); [apply scale3_0|reflexivity].
    - destruct C as (i3 & T3 & C). rewrite T3, total_at_single. cbn [Nat.leb]. now rewrite Nat.sub_0_r, C.
  Qed.
End Vbap.
