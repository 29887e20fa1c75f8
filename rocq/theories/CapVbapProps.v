(** * C60: the variant of vector base amplitude panning used with compensated amplitude panning *)
From Verif Require Import Base QuaternionModel QuaternionProofs ListenerModel VbapModel VbapSpec VbapProofs VbapLaws VbapProps VbapVirtualProps CapVbapModel.
From Coq Require Import Reals Lra.
Local Open Scope R_scope.
Local Open Scope res_scope.

(** ** Specification *)
(** point from which the loudspeakers are seen: the loudspeakers of an infinite array have the same
    direction everywhere *)
Definition viewpoint (a : array) (l : pos3 R) : pos3 R := if a_infinite a then zero3 else l.
(** some triplet encloses the source *)
Definition enclosed (a : array) (l p : pos3 R) : Prop :=
  exists t g, In t (a_triplets a) /\ coordinates a (viewpoint a l) t p g /\ inside_cone (a_2D a) g.

(** ** Proofs *)
Lemma towards_unit epsilon l s : 0 < epsilon -> epsilon <= distance l s -> square (towards l s) = 1.
Proof.
  intros E D. unfold towards. cbv zeta. unfold distance in D. set (d := P3 _ _ _) in *. unfold scale3, square. cbn [px py pz].
  assert (N : norm3 d * norm3 d = square d) by (unfold norm3, square; apply sqrt_def; nra).
  replace (/ norm3 d * px d * (/ norm3 d * px d) + / norm3 d * py d * (/ norm3 d * py d) + / norm3 d * pz d * (/ norm3 d * pz d)) with (square d / (norm3 d * norm3 d)) by (unfold square; field; lra).
  rewrite N. field. rewrite <- N. nra.
Qed.
Lemma plane_cosine u v : square u = 1 -> square v = 1 -> -1 <= px u * px v + py u * py v.
Proof.
  destruct u as [a b c], v as [d e f]. unfold square. cbn [px py pz]. intros U V.
  pose proof (Rle_0_sqr (a + d)). pose proof (Rle_0_sqr (b + e)). pose proof (Rle_0_sqr c). pose proof (Rle_0_sqr f). unfold Rsqr in *. nra.
Qed.

Lemma relative_eq a l p : (if a_infinite a then p else Rpsub p l) = Rpsub p (viewpoint a l).
Proof. unfold viewpoint. destruct (a_infinite a); [|reflexivity]. destruct p as [x y z]. unfold Rpsub, zero3. cbn [px py pz]. apply P3_eq; ring. Qed.
Lemma cv_row_ok epsilon a l t u v w : 0 < epsilon -> a_2D a = false -> placed epsilon a (viewpoint a l) -> legs a (viewpoint a l) t u v w ->
  cv_row epsilon a l (-1) t = Ok (inv_matrix u v w, false).
Proof.
  intros He D P (H1 & H2 & H3). rewrite D in H3. apply position_direction in H1 as (s1 & E1 & I1 & ->). apply position_direction in H2 as (s2 & E2 & I2 & ->).
  destruct H3 as (i3 & T & H3). apply position_direction in H3 as (s3 & E3 & I3 & ->). unfold cv_row. rewrite E1, E2, T, E3, D. cbn [bind]. rewrite !relative_eq.
  rewrite !(normalise_towards epsilon He) by now apply (pl_far epsilon _ _ P). f_equal. f_equal. apply Rltb_nlt.
  apply plane_cosine; apply (towards_unit epsilon); try exact He; now apply (pl_far epsilon _ _ P).
Qed.
Lemma cv_rows_ok epsilon a l : 0 < epsilon -> a_2D a = false -> placed epsilon a (viewpoint a l) -> exists v, cv_construct epsilon a l = Ok v
  /\ k_array v = a /\ k_listener v = l /\ (forall r, In r (k_rows v) -> snd r = false)
  /\ forall p, Forall2 (fun t g => coordinates a (viewpoint a l) t p g) (a_triplets a) (map (fun r => coords (fst r) p) (k_rows v)).
Proof.
  intros He D P. unfold cv_construct, cv_setListenerPosition.
  assert (Q : forall ts, (forall t, In t ts -> In t (a_triplets a)) -> exists rows, map_res (cv_row epsilon a l (-1)) ts = Ok rows
     /\ (forall r, In r rows -> snd r = false) /\ forall p, Forall2 (fun t g => coordinates a (viewpoint a l) t p g) ts (map (fun r => coords (fst r) p) rows)).
  { induction ts as [|t ts IH]; intros H; [exists []; split; [reflexivity|split; [intros r []|intros; constructor]]|].
    destruct IH as (rows & E & F & G); [intros; apply H; now right|]. destruct (pl_legs epsilon _ _ P t) as (u & v & w & L & V); [apply H; now left|].
    exists ((inv_matrix u v w, false) :: rows). cbn [map_res]. rewrite (cv_row_ok epsilon a l t u v w He D P L). cbn [bind]. rewrite E. cbn [bind].
    split; [reflexivity|]. split; [intros r [<-|Hr]; [reflexivity|now apply F]|]. intros p. cbn [map]. constructor; [|apply G]. exists u, v, w. split; [exact L|]. symmetry. now apply inverse_sound. }
  destruct (Q (a_triplets a)) as (rows & E & F & G); [auto|]. rewrite E. cbn [bind]. eexists. split; [reflexivity|]. cbn [k_array k_listener k_rows]. repeat split; assumption.
Qed.

Lemma cv_search_spec p rows : (forall r, In r rows -> snd r = false) -> forall j,
  match cv_search false p rows j with
  | None => forall g, In g (map (fun r => coords (fst r) p) rows) -> ~ inside_cone false g
  | Some (k, g) => (j <= k)%nat /\ inside_cone false g /\ nth_error (map (fun r => coords (fst r) p) rows) (k - j) = Some g
      /\ forall k' g', (k' < k - j)%nat -> nth_error (map (fun r => coords (fst r) p) rows) k' = Some g' -> ~ inside_cone false g'
  end.
Proof.
  induction rows as [|[i near] rows IH]; intros H j; [intros g []|]. cbn [cv_search map fst].
  fold (Rdot p (i_1 i)) (Rdot p (i_2 i)) (Rdot p (i_3 i)). assert (N : near = false) by (apply (H (i, near)); now left). rewrite N, andb_false_r, orb_false_r.
  change (Rleb 0 (Rdot p (i_1 i)) && Rleb 0 (Rdot p (i_2 i)) && (Rleb 0 (Rdot p (i_3 i)) || false)) with (insideb false (coords i p)).
  destruct (insideb false (coords i p)) eqn:EI.
  - apply insideb_iff in EI. split; [lia|]. rewrite Nat.sub_diag. cbn [nth_error].
    assert (EG : (if Rleb (Rdot p (i_1 i)) 0 && Rleb (Rdot p (i_2 i)) 0 then (- Rdot p (i_1 i), - Rdot p (i_2 i), Rdot p (i_3 i)) else (Rdot p (i_1 i), Rdot p (i_2 i), Rdot p (i_3 i))) = coords i p).
    { destruct (Rleb (Rdot p (i_1 i)) 0) eqn:A; [|reflexivity]. destruct (Rleb (Rdot p (i_2 i)) 0) eqn:B; [|reflexivity]. cbn [andb].
      apply Rleb_le in A, B. destruct EI as (X & Y & _). cbn [coords fst snd] in X, Y. unfold coords. f_equal. f_equal; lra. }
    rewrite EG. split; [exact EI|]. split; [reflexivity|]. intros k' g' L. lia.
  - assert (NI : ~ inside_cone false (coords i p)) by (rewrite <- insideb_iff; congruence).
    assert (H' : forall r, In r rows -> snd r = false) by (intros; apply H; now right). specialize (IH H' (S j)). destruct (cv_search false p rows (S j)) as [[k g]|].
    + destruct IH as (L & I & E & F). split; [lia|]. split; [exact I|]. replace (k - j)%nat with (S (k - S j)) by lia. cbn [nth_error]. split; [exact E|].
      intros [|k'] g' Lk Eg; [cbn in Eg; apply Some_inj in Eg; now subst g'|]. cbn in Eg. apply (F k' g'); [lia|exact Eg].
    + intros g [<-|Hg]; [exact NI|now apply IH].
Qed.

Lemma triplet_gains a t (g : R * R * R) : a_2D a = false -> t_1 t <> t_2 t -> (forall i3, t_3 t = Some i3 -> t_1 t <> i3 /\ t_2 t <> i3) ->
  (t_1 t < length (a_positions a))%nat -> (t_2 t < length (a_positions a))%nat -> (exists i3, t_3 t = Some i3 /\ (i3 < length (a_positions a))%nat) ->
  exists gain, (x <- vset (repeat 0 (length (a_positions a))) (t_1 t) (fst (fst g)) ;; y <- vset x (t_2 t) (snd (fst g)) ;;
                match t_3 t with Some l3 => vset y l3 (snd g) | None => UB end) = Ok gain /\ represents a t g gain.
Proof.
  intros ED D12 D3 B1 B2 (i3 & T3 & Bi). destruct g as [[g1 g2] g3]. cbn [fst snd]. destruct (D3 i3 T3) as [D13 D23].
  assert (Z := nth_repeat0 (length (a_positions a))). set (zs := repeat 0 _) in *. assert (LZ : length zs = length (a_positions a)) by apply repeat_length.
  destruct (vset_ok zs (t_1 t) g1) as (z1 & E1 & L1 & N1); [congruence|]. rewrite E1. cbn [bind].
  destruct (vset_ok z1 (t_2 t) g2) as (z2 & E2 & L2 & N2); [congruence|]. rewrite E2. cbn [bind]. rewrite T3.
  destruct (vset_ok z2 i3 g3) as (z3 & E3 & L3 & N3); [congruence|]. rewrite E3. exists z3. split; [reflexivity|].
  split; [congruence|]. intros k. rewrite N3, N2, N1, Z. unfold gain_of. rewrite ED, T3. cbn [fst snd].
  destruct (Nat.eqb_spec k (t_1 t)), (Nat.eqb_spec k (t_2 t)), (Nat.eqb_spec k i3); congruence.
Qed.

Lemma cv_plain_spec epsilon a l pos pw v : 0 < epsilon -> a_2D a = false -> placed epsilon a (viewpoint a l) -> cv_construct epsilon a l = Ok v ->
  exists gain, calcPlainGains v pos pw = Ok gain
  /\ ((exists t g j, nth_error (a_triplets a) j = Some t /\ coordinates a (viewpoint a l) t (seen a l pos pw) g /\ inside_cone false g /\ represents a t g gain
         /\ forall j' t' g', (j' < j)%nat -> nth_error (a_triplets a) j' = Some t' -> coordinates a (viewpoint a l) t' (seen a l pos pw) g' -> ~ inside_cone false g')
      \/ (~ enclosed a l (seen a l pos pw) /\ gain = repeat 0 (length (a_positions a)))).
Proof.
  intros He D P S. destruct (cv_rows_ok epsilon a l He D P) as (v' & S' & VA & VL & NF & F). rewrite S in S'. apply Ok_inj in S'. subst v'. specialize (F (seen a l pos pw)).
  unfold calcPlainGains. rewrite VA, VL, D. cbn [andb]. assert (ES : seen a l pos pw = if pw then pos else Rpsub pos l) by (unfold seen; now rewrite D). rewrite <- ES.
  pose proof (cv_search_spec (seen a l pos pw) (k_rows v) NF 0) as C. set (gs := map _ _) in *.
  assert (U : forall j t g, nth_error (a_triplets a) j = Some t -> coordinates a (viewpoint a l) t (seen a l pos pw) g -> nth_error gs j = Some g).
  { intros j t g Hj Cg. destruct (Forall2_nth' _ _ _ _ _ F Hj) as (g'' & Hg & C''). apply nth_error_In in Hj. now rewrite (coordinates_unique epsilon a _ t _ g g'' P Hj Cg C''). }
  destruct (cv_search _ _ _ _) as [[j g]|].
  - destruct C as (_ & I & N & First). rewrite Nat.sub_0_r in N, First. destruct (Forall2_nth _ _ _ _ _ F N) as (t & Nt & Ht). rewrite Nt.
    pose proof (nth_error_In _ _ Nt) as T. assert (L := Ht). destruct L as (u & w & x & L & _). destruct (legs_bound _ _ _ _ _ _ L) as (B1 & B2 & B3).
    destruct (legs_distinct epsilon a _ t P T) as [D12 D3]. destruct (triplet_gains a t g D D12 (D3 D) B1 B2 (B3 D)) as (gain & E & Rp).
    destruct g as [[g1 g2] g3]. cbn [fst snd] in E. exists gain. split; [exact E|]. left. exists t, (g1, g2, g3), j. split; [exact Nt|]. split; [exact Ht|]. split; [exact I|]. split; [exact Rp|].
    intros j' t' g' Lj Hj Cg. apply (First j' g'); [exact Lj|]. now apply (U j' t').
  - eexists. split; [reflexivity|]. right. split; [|reflexivity]. intros (t & g & T & Cg & I). apply In_nth_error in T as (j & Hj). rewrite D in I.
    apply (C g); [|exact I]. apply (nth_error_In _ j). now apply (U j t).
Qed.
Lemma represents_nonneg a t g gain : a_2D a = false -> inside_cone false g -> represents a t g gain -> forall k, 0 <= nth k gain 0.
Proof.
  intros D (X & Y & [Z|Z]) [_ N] k; [discriminate|]. rewrite N. unfold gain_of. rewrite D. destruct (Nat.eqb k (t_1 t)); [exact X|]. destruct (Nat.eqb k (t_2 t)); [exact Y|].
  destruct (t_3 t); [|lra]. destruct (Nat.eqb k n); [exact Z|lra].
Qed.

(** ** Theorems *)
(** A 3D array, finite or infinite, whose triplets are not coplanar with the listener: construction
    succeeds; every source has nonnegative gains; they recreate the direction of the source if some
    triplet encloses it, and are zero otherwise.
    Missing for the full claim: 2D arrays and thresholds above -1 (refuted below). *)
Theorem C60_direction_partial : forall epsilon a l,
  0 < epsilon -> a_2D a = false -> placed epsilon a (viewpoint a l) ->
  exists v, cv_construct epsilon a l = Ok v
  /\ forall pos planeWave, exists gain, calcPlainGains v pos planeWave = Ok gain
     /\ length gain = length (a_positions a) /\ (forall k, 0 <= nth k gain 0)
     /\ (enclosed a l (seen a l pos planeWave) -> total gain (directions a (viewpoint a l)) = seen a l pos planeWave)
     /\ (~ enclosed a l (seen a l pos planeWave) -> gain = repeat 0 (length (a_positions a))).
Proof.
  intros epsilon a l He D P. destruct (cv_rows_ok epsilon a l He D P) as (v & S & _). exists v. split; [exact S|]. intros pos pw.
  destruct (cv_plain_spec epsilon a l pos pw v He D P S) as (gain & E & [(t & g & j & Nt & Cg & I & Rp & _)|[NE ->]]); [exists gain|eexists]; (split; [exact E|]).
  - split; [apply Rp|]. split; [now apply (represents_nonneg a t g)|]. pose proof (nth_error_In _ _ Nt) as T. split.
    + intros _. destruct Cg as (u & w & x & L & EP). rewrite (represents_total epsilon a _ t g gain u w x P T L Rp), D. now symmetry.
    + intros NE. elim NE. exists t, g. rewrite D. split; [exact T|]. split; [exact Cg|exact I].
  - split; [apply repeat_length|]. split; [intros k; rewrite nth_repeat0; lra|]. split; [intros En; now elim NE|reflexivity].
Qed.

(** Finite 3D arrays: the gains are those of VBAP for every source that a triplet encloses. *)
Theorem C60_vbap_partial : forall epsilon a l v v' pos planeWave,
  0 < epsilon -> a_2D a = false -> a_infinite a = false -> placed epsilon a l ->
  setListenerPosition epsilon a l = Ok v -> cv_construct epsilon a l = Ok v' ->
  enclosed a l (seen a l pos planeWave) ->
  calcPlainGains v' pos planeWave = calcPlainVBAP v pos planeWave
  /\ cv_calculateGains epsilon v' pos planeWave = calculateGains epsilon v pos planeWave
  /\ cv_calculateGainsUnNormalised v' pos planeWave = calculateGainsUnNormalised v pos planeWave.
Proof.
  intros epsilon a l v v' pos pw He D Fi P S S' En. assert (VP : viewpoint a l = l) by (unfold viewpoint; now rewrite Fi).
  destruct (setListenerPosition_ok epsilon He a l P) as (v1 & S1 & VA & VL & FV). rewrite S in S1. apply Ok_inj in S1. subst v1.
  assert (P' : placed epsilon a (viewpoint a l)) by (now rewrite VP).
  destruct (cv_rows_ok epsilon a l He D P') as (v1 & S1 & VA' & VL' & NF & F'). rewrite S' in S1. apply Ok_inj in S1. subst v1.
  assert (E : calcPlainGains v' pos pw = calcPlainVBAP v pos pw).
  { unfold calcPlainGains, calcPlainVBAP. rewrite VA, VA', VL, VL', D. cbn [andb]. set (p := if pw then pos else Rpsub pos l).
    assert (ES : seen a l pos pw = p) by (unfold seen; now rewrite D). rewrite ES in En. rewrite VP in F'.
    specialize (FV p). specialize (F' p). pose proof (search_result false p (v_inverse v)) as C. pose proof (cv_search_spec p (k_rows v') NF 0) as C'.
    set (gs := map _ (v_inverse v)) in *. set (gs' := map _ (k_rows v')) in *.
    assert (EG : gs = gs').
    { assert (Un : forall t g g', In t (a_triplets a) -> coordinates a l t p g -> coordinates a l t p g' -> g = g') by (intros; now apply (coordinates_unique epsilon a l t p)).
      clear - FV F' Un. generalize dependent gs'. clearbody gs. revert FV Un. generalize (a_triplets a) as ts. intros ts FV. induction FV as [|t g ts gs Ht FV IH]; intros Un gs' F'; inversion F' as [|? g' ? gs1 Ht' F1]; subst; [reflexivity|].
      f_equal; [apply (Un t); [now left|exact Ht|exact Ht']|]. apply IH; [intros; apply (Un t0); [now right|assumption|assumption]|exact F1]. }
    rewrite <- EG in C'. assert (IN : exists g, In g gs /\ inside_cone false g).
    { destruct En as (t & g & T & Cg & I). rewrite VP in Cg. rewrite D in I. apply In_nth_error in T as (j & Hj). destruct (Forall2_nth' _ _ _ _ _ FV Hj) as (g'' & Hg & C'').
      apply nth_error_In in Hj. rewrite <- (coordinates_unique epsilon a l t p g g'' P Hj Cg C'') in Hg. exists g. split; [now apply nth_error_In in Hg|exact I]. }
    destruct IN as (g0 & G0 & I0). destruct (cv_search false p (k_rows v') 0) as [[k' g']|]; [|now elim (C' g0 G0)].
    destruct (search false p (v_inverse v) 0 None 0) as [[k g]|]; cbn [chosen] in C; [|now elim (proj1 (C g0 G0))].
    destruct C as [N [[I First]|(NI & _)]]; [|now elim (NI g0 G0)]. destruct C' as (_ & I' & N' & First'). rewrite Nat.sub_0_r in N', First'.
    destruct (Nat.lt_trichotomy k k') as [L|[<-|L]]; [now elim (First' k g L N)| |now elim (First k' g' L N')]. rewrite N in N'. apply Some_inj in N'. now subst g'. }
  split; [exact E|]. unfold cv_calculateGains, calculateGains, cv_calculateGainsUnNormalised, calculateGainsUnNormalised. rewrite E, VA, VA'. split; reflexivity.
Qed.

(** ** Concrete cases *)
(** An infinite array and a listener away from the origin (compare C58_infinite_array_refuted) *)
Definition far_axes : array := Array false true [P3 1 0 0; P3 0 1 0; P3 0 0 1] 3 [Triplet 0 1 (Some 2%nat)] [].
Lemma far_axes_directions : directions far_axes zero3 = [P3 1 0 0; P3 0 1 0; P3 0 0 1].
Proof. unfold directions. cbn [far_axes a_positions map]. change zero3 with origin. repeat f_equal; [tw 1 (P3 1 0 0)|tw 1 (P3 0 1 0)|tw 1 (P3 0 0 1)]. Qed.
Lemma far_axes_placed l : placed eps0 far_axes (viewpoint far_axes l).
Proof.
  change (viewpoint far_axes l) with origin. constructor.
  - intros s [<-|[<-|[<-|[]]]].
    + assert (E : distance origin (P3 1 0 0) = 1) by tw 1 (P3 1 0 0). rewrite E. unfold eps0. lra.
    + assert (E : distance origin (P3 0 1 0) = 1) by tw 1 (P3 0 1 0). rewrite E. unfold eps0. lra.
    + assert (E : distance origin (P3 0 0 1) = 1) by tw 1 (P3 0 0 1). rewrite E. unfold eps0. lra.
  - discriminate.
  - intros t [<-|[]]. exists (P3 1 0 0), (P3 0 1 0), (P3 0 0 1). split; [|unfold volume; cbn [px py pz]; lra].
    unfold legs. change origin with zero3. rewrite far_axes_directions. cbn [t_1 t_2 t_3 nth_error far_axes a_2D]. split; [reflexivity|]. split; [reflexivity|]. exists 2%nat. now split.
Qed.
Example far_axes_gains : exists v, cv_construct eps0 far_axes (P3 1 1 0) = Ok v /\ calcPlainGains v (P3 1 1 0) true = Ok [1; 1; 0]
  /\ calcPlainGains v (P3 (-1) 1 0) true = Ok [0; 0; 0].
Proof.
  assert (He : 0 < eps0) by (unfold eps0; lra). destruct (C60_direction_partial eps0 far_axes (P3 1 1 0) He eq_refl (far_axes_placed _)) as (v & S & H). exists v. split; [exact S|].
  assert (VD : directions far_axes (viewpoint far_axes (P3 1 1 0)) = [P3 1 0 0; P3 0 1 0; P3 0 0 1]) by exact far_axes_directions.
  assert (CD : forall x y z, coordinates far_axes (viewpoint far_axes (P3 1 1 0)) (Triplet 0 1 (Some 2%nat)) (P3 x y z) (x, y, z)).
  { intros x y z. exists (P3 1 0 0), (P3 0 1 0), (P3 0 0 1). split; [|unfold comb, combine3, add3, scale3; cbn [px py pz fst snd]; apply P3_eq; ring].
    unfold legs. rewrite VD. cbn [t_1 t_2 t_3 nth_error far_axes a_2D]. split; [reflexivity|]. split; [reflexivity|]. exists 2%nat. now split. }
  split.
  - destruct (H (P3 1 1 0) true) as (gain & E & L & _ & T & _). rewrite E. f_equal. cbn [far_axes a_positions length] in L.
    rewrite VD in T. unfold seen in T. cbn [far_axes a_2D] in T. assert (TT : total gain [P3 1 0 0; P3 0 1 0; P3 0 0 1] = P3 1 1 0).
    { apply T. exists (Triplet 0 1 (Some 2%nat)), (1, 1, 0). split; [now left|]. split; [apply CD|]. unfold inside_cone. cbn [fst snd]. repeat split; [lra|lra|right; lra]. }
    destruct gain as [|a [|b [|c [|]]]]; try discriminate L. unfold total, add3, scale3, zero3 in TT. cbn [px py pz] in TT. injection TT as T1 T2 T3. repeat apply cons_eq; try reflexivity; lra.
  - destruct (H (P3 (-1) 1 0) true) as (gain & E & _ & _ & _ & Z). rewrite E. f_equal. apply Z. unfold seen. cbn [far_axes a_2D]. intros (t & g & [<-|[]] & C & I).
    rewrite (coordinates_unique eps0 far_axes _ _ _ g _ (far_axes_placed _) (or_introl eq_refl) C (CD (-1) 1 0)) in I. destruct I as [I _]. cbn [fst] in I. lra.
Qed.
(** The tent of C58: a finite array and an enclosed source *)
Example tent_enclosed : a_infinite tent = false /\ placed eps0 tent here /\ enclosed tent here (seen tent here (P3 2 2 (-2)) false).
Proof.
  split; [reflexivity|]. split; [exact tent_placed|]. exists (Triplet 0 1 (Some 3%nat)), (1, 2, 2). split; [right; left; reflexivity|]. split.
  - change (viewpoint tent here) with here. exists (P3 1 0 0), (P3 0 1 0), (P3 0 0 (-1)). split.
    + unfold legs. rewrite tent_directions. cbn [t_1 t_2 t_3 nth_error tent a_2D]. split; [reflexivity|]. split; [reflexivity|]. exists 3%nat. now split.
    + unfold seen, comb, combine3, add3, scale3. cbn [tent a_2D here px py pz fst snd]. apply P3_eq; ring.
  - unfold inside_cone. cbn [fst snd]. repeat split; [lra|lra|right; lra].
Qed.

(** ** What does not hold *)
(** A 2D array is read at the third index of its triplets, which is not the index of a loudspeaker *)
Theorem C60_2D_refuted : planar square_array origin /\ placed eps0 square_array origin /\ cv_construct eps0 square_array origin = UB.
Proof. destruct square_planar as [A B]. split; [exact A|]. split; [exact B|]. reflexivity. Qed.

(** Near the boundary of a triplet the third gain keeps its negative sign *)
Definition axes : array := Array false false [P3 1 0 0; P3 0 1 0; P3 0 0 1] 3 [Triplet 0 1 (Some 2%nat)] [].
Lemma axes_rows threshold : cv_setListenerPosition eps0 axes threshold false origin
  = Ok (CapVbap axes origin [(inv_matrix (P3 1 0 0) (P3 0 1 0) (P3 0 0 1), Rltb (1 * 0 + 0 * 1) threshold)] threshold false).
Proof.
  assert (N1 : normalise eps0 (Rpsub (P3 1 0 0) origin) = P3 1 0 0) by nis 1 (P3 1 0 0).
  assert (N2 : normalise eps0 (Rpsub (P3 0 1 0) origin) = P3 0 1 0) by nis 1 (P3 0 1 0).
  assert (N3 : normalise eps0 (Rpsub (P3 0 0 1) origin) = P3 0 0 1) by nis 1 (P3 0 0 1).
  unfold cv_setListenerPosition, map_res, cv_row, position. cbn [axes a_triplets a_positions a_2D a_infinite t_1 t_2 t_3 nth_error bind]. rewrite N1, N2, N3. reflexivity.
Qed.
Lemma axes_gains near threshold : calcPlainGains (CapVbap axes origin [(inv_matrix (P3 1 0 0) (P3 0 1 0) (P3 0 0 1), near)] threshold false) (P3 (-1) (-1) (-1)) true
  = Ok (if near then [1; 1; -1] else [0; 0; 0]).
Proof.
  unfold calcPlainGains. cbn [k_array k_rows k_fade axes a_2D andb a_positions length repeat cv_search].
  assert (C : coords (inv_matrix (P3 1 0 0) (P3 0 1 0) (P3 0 0 1)) (P3 (-1) (-1) (-1)) = (-1, -1, -1)).
  { rewrite <- (inverse_complete (P3 1 0 0) (P3 0 1 0) (P3 0 0 1) (-1) (-1) (-1)) by (unfold volume; cbn [px py pz]; lra).
    f_equal. unfold combine3, add3, scale3. cbn [px py pz]. apply P3_eq; ring. }
  set (i := inv_matrix _ _ _) in *. set (p := P3 (-1) (-1) (-1)) in *. fold (Rdot p (i_1 i)) (Rdot p (i_2 i)) (Rdot p (i_3 i)).
  assert (C1 : Rdot p (i_1 i) = -1) by exact (f_equal (fun g => fst (fst g)) C). assert (C2 : Rdot p (i_2 i) = -1) by exact (f_equal (fun g => snd (fst g)) C).
  assert (C3 : Rdot p (i_3 i) = -1) by exact (f_equal snd C). rewrite C1, C2, C3. dec. destruct near; [|reflexivity].
  cbn [axes a_triplets nth_error t_1 t_2 t_3]. unfold vset. cbn [length Nat.ltb Nat.leb firstn skipn app bind]. f_equal. repeat apply cons_eq; try reflexivity; ring.
Qed.
Theorem C60_near_sign_refuted : exists v, cv_setListenerPosition eps0 axes (1/2) false origin = Ok v /\ calcPlainGains v (P3 (-1) (-1) (-1)) true = Ok [1; 1; -1]
  /\ directions axes origin = [P3 1 0 0; P3 0 1 0; P3 0 0 1].
Proof.
  rewrite axes_rows. eexists. split; [reflexivity|]. split; [|unfold directions; cbn [axes a_positions map]; repeat f_equal; [tw 1 (P3 1 0 0)|tw 1 (P3 0 1 0)|tw 1 (P3 0 0 1)]].
  rewrite axes_gains. replace (Rltb (1 * 0 + 0 * 1) (1/2)) with true by (symmetry; apply Rltb_lt; lra). reflexivity.
Qed.
(** A new threshold has no effect until the listener moves *)
Theorem C60_threshold_refuted : exists v v', cv_construct eps0 axes origin = Ok v
  /\ cv_setListenerPosition eps0 axes (k_threshold (setNearTripletBoundaryCosTheta v (1/2))) false origin = Ok v'
  /\ calcPlainGains (setNearTripletBoundaryCosTheta v (1/2)) (P3 (-1) (-1) (-1)) true = Ok [0; 0; 0]
  /\ calcPlainGains v' (P3 (-1) (-1) (-1)) true = Ok [1; 1; -1].
Proof.
  unfold cv_construct. rewrite axes_rows. eexists. eexists. split; [reflexivity|]. cbn [setNearTripletBoundaryCosTheta k_threshold k_array k_listener k_rows k_fade]. rewrite axes_rows.
  split; [reflexivity|]. unfold setNearTripletBoundaryCosTheta. cbn [k_array k_listener k_rows k_fade]. rewrite !axes_gains. replace (Rltb (1 * 0 + 0 * 1) (1/2)) with true by (symmetry; apply Rltb_lt; lra).
  replace (Rltb (1 * 0 + 0 * 1) (-1)) with false by (symmetry; apply Rltb_nlt; lra). split; reflexivity.
Qed.

Print Assumptions C60_direction_partial.
Print Assumptions C60_vbap_partial.
Print Assumptions C60_2D_refuted.
Print Assumptions C60_near_sign_refuted.
Print Assumptions C60_threshold_refuted.
