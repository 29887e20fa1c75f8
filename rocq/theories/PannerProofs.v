(** Proofs about the panning calculator. *)
From Verif Require Import Base QuaternionModel QuaternionProofs ListenerModel VbapModel VbapSpec VbapProofs VbapLaws VbapProps VbapVirtualProps PannerModel PannerSpec.
From Verif Require CircularBufferModel CircularBufferProofs.
From Coq Require Import Reals Lra.
From Coq Require String.
Local Open Scope R_scope.
Local Open Scope res_scope.

Lemma stride_ge n : (n <= stride n)%nat.
Proof. apply CircularBufferProofs.next_aligned_ge. Qed.

(** *** Writing columns *)
Lemma write_strided_ok s ch : (ch < s)%nat -> forall vals r0 rows d d', length d = (rows * s)%nat -> (r0 + length vals <= rows)%nat -> write_strided d (r0 * s + ch) s vals = Ok d' ->
  length d' = length d /\ forall row col, (col < s)%nat -> nth (row * s + col) d' 0 = if Nat.eqb col ch && Nat.leb r0 row && Nat.ltb row (r0 + length vals) then nth (row - r0) vals 0 else nth (row * s + col) d 0.
Proof.
  intros Hc. induction vals as [|x vals IH]; intros r0 rows d d' L B E; cbn [write_strided] in E.
  - apply Ok_inj in E. subst d'. split; [reflexivity|]. intros row col Hcol. cbn [length].
    destruct (Nat.leb_spec r0 row), (Nat.ltb_spec row (r0 + 0)); rewrite ?andb_false_r; try reflexivity. lia.
  - destruct (vset_ok d (r0 * s + ch) x) as (d1 & E1 & L1 & N1); [rewrite L; cbn [length] in B; nia|]. rewrite E1 in E. cbn [bind] in E.
    replace (r0 * s + ch + s)%nat with (S r0 * s + ch)%nat in E by lia. destruct (IH (S r0) rows d1 d') as [LL N]; [congruence|cbn [length] in B; lia|exact E|].
    split; [congruence|]. intros row col Hcol. rewrite N by exact Hcol. rewrite N1. cbn [length].
    assert (Q : Nat.eqb (row * s + col) (r0 * s + ch) = Nat.eqb col ch && Nat.eqb row r0).
    { destruct (Nat.eqb_spec col ch) as [->|N0], (Nat.eqb_spec row r0) as [->|N2]; cbn [andb]; [apply Nat.eqb_refl|apply Nat.eqb_neq; nia|apply Nat.eqb_neq; lia|].
      apply Nat.eqb_neq. intros A. assert (row = r0) by (destruct (lt_eq_lt_dec row r0) as [[H|H]|H]; [exfalso; nia|exact H|exfalso; nia]). contradiction. }
    rewrite Q. destruct (Nat.eqb_spec col ch) as [->|N0]; cbn [andb]; [|reflexivity].
    destruct (Nat.eqb_spec row r0) as [->|N2].
    + destruct (Nat.leb_spec (S r0) r0); [lia|]. cbn [andb]. destruct (Nat.leb_spec r0 r0); [|lia]. destruct (Nat.ltb_spec r0 (r0 + S (length vals))); [|lia]. cbn [andb]. now rewrite Nat.sub_diag.
    + destruct (Nat.leb_spec (S r0) row), (Nat.leb_spec r0 row); try lia; cbn [andb]; try reflexivity.
      destruct (Nat.ltb_spec row (S r0 + length vals)), (Nat.ltb_spec row (r0 + S (length vals))); try lia; [|reflexivity]. replace (row - r0)%nat with (S (row - S r0)) by lia. reflexivity.
Qed.
Lemma write_strided_total s ch : (ch < s)%nat -> forall vals r0 rows d, length d = (rows * s)%nat -> (r0 + length vals <= rows)%nat -> exists d', write_strided d (r0 * s + ch) s vals = Ok d'.
Proof.
  intros Hc. induction vals as [|x vals IH]; intros r0 rows d L B; [eexists; reflexivity|]. cbn [write_strided].
  destruct (vset_ok d (r0 * s + ch) x) as (d1 & E1 & L1 & N1); [rewrite L; cbn [length] in B; nia|]. rewrite E1. cbn [bind].
  replace (r0 * s + ch + s)%nat with (S r0 * s + ch)%nat by lia. apply (IH (S r0) rows); [congruence|cbn [length] in B; lia].
Qed.

Lemma size_eq mode g : sig_norm mode g = size_of mode g.
Proof.
  destruct mode; [reflexivity| |]; cbn [sig_norm size_of]; [|now rewrite power_eq].
  assert (F : forall l acc, fold_left (fun acc val => acc + Rabs val) l acc = acc + fold_right (fun x s => Rabs x + s) 0 l).
  { induction l as [|x l IH]; intros acc; cbn [fold_left fold_right]; [ring|]. rewrite IH. ring. }
  rewrite F. ring.
Qed.

Lemma map_seq_nth {B} (f : nat -> B) (db : B) m i : (i < m)%nat -> nth i (map f (seq 0 m)) db = f i.
Proof. intros H. rewrite (nth_indep _ db (f 0%nat)) by (rewrite map_length, seq_length; exact H). rewrite map_nth, seq_nth by exact H. reflexivity. Qed.
Lemma column_length regular n d c : length (column regular n d c) = regular.
Proof. unfold column. now rewrite map_length, seq_length. Qed.
Lemma column_nth regular n d c row : (row < regular)%nat -> nth row (column regular n d c) 0 = element n d row c.
Proof. intros H. unfold column. now apply (map_seq_nth (fun row => element n d row c)). Qed.

Section Writes.
  Variables (epsilon : R) (n regular : nat).
  (** what happens to one matrix *)
  Definition sized (m : option (list R)) : Prop := match m with Some d => length d = (regular * stride n)%nat | None => True end.
  Definition updates (m m' : option (list R)) (ch : nat) (col : list R) : Prop :=
    match m, m' with
    | None, None => True
    | Some d, Some d' => length d' = length d /\ forall c, (c < stride n)%nat -> column regular n d' c = if Nat.eqb c ch then col else column regular n d c
    | _, _ => False
    end.
  Definition keeps (m m' : option (list R)) (ch : nat) : Prop :=
    match m, m' with
    | None, None => True
    | Some d, Some d' => length d' = length d /\ column regular n d' ch = column regular n d ch
    | _, _ => False
    end.
  Lemma keeps_refl m ch : keeps m m ch. Proof using. destruct m; cbn; auto. Qed.
  Lemma keeps_trans m m' m'' ch : keeps m m' ch -> keeps m' m'' ch -> keeps m m'' ch.
  Proof using. destruct m, m', m''; cbn; try tauto. intros [A B] [C D]. split; congruence. Qed.
  Lemma keeps_sized m m' ch : keeps m m' ch -> sized m -> sized m'.
  Proof using. destruct m, m'; cbn; try tauto. intros [A _] B. congruence. Qed.
  Lemma updates_sized m m' ch col : updates m m' ch col -> sized m -> sized m'.
  Proof using. destruct m, m'; cbn; try tauto. intros [A _] B. congruence. Qed.
  Lemma updates_keeps m m' ch col c : updates m m' ch col -> c <> ch -> (c < stride n)%nat -> keeps m m' c.
  Proof using. destruct m, m'; cbn; try tauto. intros [A B] N H. split; [exact A|]. rewrite B by exact H. apply Nat.eqb_neq in N. now rewrite N. Qed.
  Lemma write_to_updates m g ch mode level m' : sized m -> (ch < n)%nat -> (m <> None -> length g = regular) -> write_to epsilon m g ch mode n level = Ok m' ->
    updates m m' ch (at_level epsilon mode level g).
  Proof using.
    intros Sz Hc Lg E. unfold write_to in E. destruct m as [d|]; [|apply Ok_inj in E; subst m'; exact I]. destruct (normalise_into epsilon g d ch mode (stride n) level) as [d'| |] eqn:EN; try discriminate.
    cbn [bind] in E. apply Ok_inj in E. subst m'. unfold normalise_into in EN. rewrite size_eq in EN. fold (at_level epsilon mode level g) in EN.
    assert (Lg' : length (at_level epsilon mode level g) = regular) by (unfold at_level; rewrite map_length; apply Lg; discriminate).
    pose proof (stride_ge n) as Hs. destruct (write_strided_ok (stride n) ch ltac:(lia) (at_level epsilon mode level g) 0 regular d d') as [LL N]; [exact Sz|lia|exact EN|].
    split; [exact LL|]. intros c Hcs. destruct (Nat.eqb_spec c ch) as [->|NE].
    - apply (nth_ext _ _ 0 0); [rewrite column_length; congruence|]. rewrite column_length. intros row Hr. rewrite column_nth by exact Hr. unfold element. rewrite N by exact Hcs.
      rewrite Nat.eqb_refl, Lg'. cbn [andb Nat.leb]. destruct (Nat.ltb_spec row (0 + regular)); [|lia]. now rewrite Nat.sub_0_r.
    - apply (nth_ext _ _ 0 0); [rewrite !column_length; reflexivity|]. rewrite column_length. intros row Hr. rewrite !column_nth by exact Hr. unfold element. rewrite N by exact Hcs.
      apply Nat.eqb_neq in NE. now rewrite NE.
  Qed.
  Lemma write_to_total m g ch mode level : sized m -> (ch < n)%nat -> (m <> None -> length g = regular) -> exists m', write_to epsilon m g ch mode n level = Ok m'.
  Proof using.
    intros Sz Hc Lg. unfold write_to. destruct m as [d|]; [|eexists; reflexivity]. unfold normalise_into. pose proof (stride_ge n) as Hs.
    destruct (write_strided_total (stride n) ch ltac:(lia) (map (fun x => level / Rmax (sig_norm mode g) epsilon * x) g) 0 regular d Sz) as (d' & E); [rewrite map_length, Lg by discriminate; lia|].
    rewrite Nat.mul_0_l, Nat.add_0_l in E. rewrite E. eexists. reflexivity.
  Qed.

  (** *** The parts of the state that objects do not change *)
  Definition config (p : panner) := (n_objects p, n_loudspeakers p, n_table p, n_vbap p, n_lfNorm p, n_hfNorm p, n_diffuseNorm p).
  Definition fits (p : panner) : Prop := n_objects p = n /\ n_loudspeakers p = regular /\ sized (n_lf p) /\ sized (n_hf p) /\ sized (n_diffuse p).
  Definition keeps_all (p p' : panner) (ch : nat) : Prop := keeps (n_lf p) (n_lf p') ch /\ keeps (n_hf p) (n_hf p') ch /\ keeps (n_diffuse p) (n_diffuse p') ch.
  Definition col_is (m : option (list R)) (ch : nat) (col : list R) : Prop := match m with Some d => column regular n d ch = col | None => True end.
  Definition cols (p : panner) (ch : nat) (lf hf df : list R) : Prop := col_is (n_lf p) ch lf /\ col_is (n_hf p) ch hf /\ col_is (n_diffuse p) ch df.
  Definition same_outputs (p p' : panner) : Prop := (n_lf p = None <-> n_lf p' = None) /\ (n_hf p = None <-> n_hf p' = None) /\ (n_diffuse p = None <-> n_diffuse p' = None).
  Lemma keeps_col m m' ch col : keeps m m' ch -> col_is m ch col -> col_is m' ch col.
  Proof using. destruct m, m'; cbn; try tauto. intros [_ ->] <-. reflexivity. Qed.
  Lemma keeps_cols p p' ch lf hf df : keeps_all p p' ch -> cols p ch lf hf df -> cols p' ch lf hf df.
  Proof using. intros (A & B & C) (D & E & F). repeat split; eauto using keeps_col. Qed.
  Lemma updates_col m m' ch col : (ch < n)%nat -> updates m m' ch col -> col_is m' ch col.
  Proof using. pose proof (stride_ge n). unfold updates, col_is. destruct m, m'; try tauto. intros L [_ U]. rewrite U by lia. now rewrite Nat.eqb_refl. Qed.
  Lemma keeps_all_refl p ch : keeps_all p p ch. Proof using. repeat split; apply keeps_refl. Qed.
  Lemma keeps_all_trans p p' p'' ch : keeps_all p p' ch -> keeps_all p' p'' ch -> keeps_all p p'' ch.
  Proof using. intros (A & B & C) (D & E & F). repeat split; eauto using keeps_trans. Qed.
  Lemma updates_none m m' ch col : updates m m' ch col -> (m = None <-> m' = None).
  Proof using. destruct m, m'; cbn; intuition discriminate. Qed.
  Lemma same_outputs_trans p p' p'' : same_outputs p p' -> same_outputs p' p'' -> same_outputs p p''.
  Proof using. unfold same_outputs. tauto. Qed.

  (** the step made by one channel of an object *)
  Definition step_to (p p' : panner) (ch : nat) (lf hf df : list R) (r : R) : Prop :=
    config p' = config p /\ fits p' /\ same_outputs p p' /\ (forall c, c <> ch -> (c < n)%nat -> keeps_all p p' c)
    /\ cols p' ch (at_level epsilon (n_lfNorm p) (1 - r) lf) (at_level epsilon (n_hfNorm p) (1 - r) hf) (at_level epsilon (n_diffuseNorm p) r df).
  Lemma write_gains_step p ch lf hf df r p' : fits p -> (ch < n)%nat -> length lf = regular -> (n_hf p <> None -> length hf = regular) -> length df = regular ->
    write_gains epsilon p ch lf hf df (1 - r) r = Ok p' -> step_to p p' ch lf hf df r.
  Proof using.
    intros (F1 & F2 & S1 & S2 & S3) Hc L1 L2 L3 E. unfold write_gains in E. rewrite F1 in E.
    destruct (write_to epsilon (n_lf p) lf ch (n_lfNorm p) n (1 - r)) as [l| |] eqn:E1; try discriminate. cbn [bind] in E.
    destruct (write_to epsilon (n_hf p) hf ch (n_hfNorm p) n (1 - r)) as [h| |] eqn:E2; try discriminate. cbn [bind] in E.
    destruct (write_to epsilon (n_diffuse p) df ch (n_diffuseNorm p) n r) as [d| |] eqn:E3; try discriminate. cbn [bind] in E. apply Ok_inj in E. subst p'.
    apply write_to_updates in E1; [|exact S1|exact Hc|intros _; exact L1]. apply write_to_updates in E2; [|exact S2|exact Hc|exact L2]. apply write_to_updates in E3; [|exact S3|exact Hc|intros _; exact L3].
    pose proof (stride_ge n) as Hs. unfold step_to, config, fits, same_outputs, keeps_all, cols. cbn [n_objects n_loudspeakers n_table n_vbap n_lfNorm n_hfNorm n_diffuseNorm n_lf n_hf n_diffuse].
    split; [now rewrite F1|]. split; [do 2 (split; [reflexivity || exact F2|]); split; [|split]; eauto using updates_sized|]. split; [split; [|split]; eapply updates_none; eauto|].
    split; [intros c Hne Hcn; split; [|split]; eapply updates_keeps; eauto; lia|]. split; [|split]; eapply updates_col; eauto.
  Qed.
  Lemma write_gains_total p ch lf hf df a b : fits p -> (ch < n)%nat -> length lf = regular -> (n_hf p <> None -> length hf = regular) -> length df = regular ->
    exists p', write_gains epsilon p ch lf hf df a b = Ok p'.
  Proof using.
    intros (F1 & F2 & S1 & S2 & S3) Hc L1 L2 L3. unfold write_gains. rewrite F1.
    destruct (write_to_total (n_lf p) lf ch (n_lfNorm p) a S1 Hc (fun _ => L1)) as (l & ->). cbn [bind].
    destruct (write_to_total (n_hf p) hf ch (n_hfNorm p) a S2 Hc L2) as (h & ->). cbn [bind].
    destruct (write_to_total (n_diffuse p) df ch (n_diffuseNorm p) b S3 Hc (fun _ => L3)) as (d & ->). cbn [bind]. eexists. reflexivity.
  Qed.
End Writes.

(** *** Labels *)
Lemma lookup_app t t' x : lookup (t ++ t') x = match lookup t x with Some y => Some y | None => lookup t' x end.
Proof.
  unfold lookup. induction t as [|[l k] t IH]; [reflexivity|]. cbn [app find fst]. destruct (String.eqb l x); [reflexivity|exact IH].
Qed.
Lemma loudspeakerId_found ids i : In i (map snd ids) -> exists label, loudspeakerId ids i = Ok label /\ In (label, i) ids.
Proof.
  intros H. unfold loudspeakerId. destruct (find (fun p => Nat.eqb (snd p) i) ids) as [[l k]|] eqn:E.
  - apply find_some in E. destruct E as [E1 E2]. cbn [snd] in E2. apply Nat.eqb_eq in E2. subst k. exists l. split; [reflexivity|exact E1].
  - apply in_map_iff in H. destruct H as ([l k] & <- & H). pose proof (find_none _ _ E _ H) as N. cbn [snd] in N. rewrite Nat.eqb_refl in N. discriminate.
Qed.
Lemma NoDup_fst_eq {A B} (l : list (A * B)) x y y' : NoDup (map fst l) -> In (x, y) l -> In (x, y') l -> y = y'.
Proof.
  induction l as [|[a b] l IH]; [intros _ []|]. cbn [map]. intros N H H'. inversion N; subst. destruct H as [H|H], H' as [H'|H'].
  - congruence.
  - inversion H; subst. elim H2. change x with (fst (x, y')). now apply in_map.
  - inversion H'; subst. elim H2. change x with (fst (x, y)). now apply in_map.
  - now apply IH.
Qed.
Lemma NoDup_snd_eq {A B} (l : list (A * B)) x x' y : NoDup (map snd l) -> In (x, y) l -> In (x', y) l -> x = x'.
Proof.
  induction l as [|[a b] l IH]; [intros _ []|]. cbn [map]. intros N H H'. inversion N; subst. destruct H as [H|H], H' as [H'|H'].
  - congruence.
  - inversion H; subst. elim H2. change y with (snd (x', y)). now apply in_map.
  - inversion H'; subst. elim H2. change y with (snd (x, y)). now apply in_map.
  - now apply IH.
Qed.
Definition table_of (ids : list (String.string * nat)) (regular : nat) (t : list (String.string * nat)) : Prop :=
  forall label i, lookup t label = Some i <-> In (label, i) ids /\ (i < regular)%nat.
Lemma fill_ok ids regular : named ids regular -> forall m k t, (k + m = regular)%nat -> table_of ids k t -> exists t', fill_from ids m k t = Ok t' /\ table_of ids regular t'.
Proof.
  intros (N1 & N2 & N3). induction m as [|m IH]; intros k t Hk T; cbn [fill_from].
  - exists t. split; [reflexivity|]. replace regular with k by lia. exact T.
  - destruct (loudspeakerId_found ids k) as (label & E & I); [apply N3; lia|]. rewrite E. cbn [bind].
    destruct (lookup t label) as [j|] eqn:EL; [apply T in EL; destruct EL as [I' J]; pose proof (NoDup_fst_eq ids label k j N1 I I'); lia|].
    apply IH; [lia|]. intros x i. rewrite lookup_app. destruct (lookup t x) as [y|] eqn:EX.
    + pose proof (proj1 (T x y) EX) as [I' J]. split.
      * intros A. injection A as <-. split; [exact I'|lia].
      * intros [A B]. f_equal. exact (NoDup_fst_eq ids x y i N1 I' A).
    + unfold lookup. cbn [find fst]. destruct (String.eqb_spec label x) as [<-|NE].
      * split; [intros A; injection A as <-; split; [exact I|lia]|]. intros [A B]. cbn [snd]. f_equal. exact (NoDup_fst_eq ids label k i N1 I A).
      * split; [discriminate|]. intros [A B]. assert (i = k \/ (i < k)%nat) as [->|L] by lia; [elim NE; exact (NoDup_snd_eq ids label x k N2 I A)|].
        rewrite (proj2 (T x i) (conj A L)) in EX. discriminate.
Qed.
Lemma fillLabelLookup_ok ids regular : named ids regular -> exists t, fillLabelLookup ids regular = Ok t /\ table_of ids regular t.
Proof. intros N. apply fill_ok; [exact N|reflexivity|]. intros label i. unfold lookup. cbn [find]. split; [discriminate|lia]. Qed.

Definition named_by (ids : list (String.string * nat)) (ls : list String.string) (i : nat) : Prop := exists label, In label ls /\ In (label, i) ids.
Lemma named_by_dec ids ls i : named_by ids ls i \/ ~ named_by ids ls i.
Proof.
  destruct (existsb (fun label => existsb (fun p => String.eqb (fst p) label && Nat.eqb (snd p) i) ids) ls) eqn:E.
  - left. apply existsb_exists in E. destruct E as (label & I & E). apply existsb_exists in E. destruct E as ([x k] & I' & E). cbn [fst snd] in E.
    apply andb_true_iff in E. destruct E as [E1 E2]. apply String.eqb_eq in E1. apply Nat.eqb_eq in E2. subst. exists label. split; assumption.
  - right. intros (label & I & I'). assert (X : existsb (fun label => existsb (fun p => String.eqb (fst p) label && Nat.eqb (snd p) i) ids) ls = true).
    { apply existsb_exists. exists label. split; [exact I|]. apply existsb_exists. exists (label, i). split; [exact I'|]. cbn [fst snd]. now rewrite String.eqb_refl, Nat.eqb_refl. }
    congruence.
Qed.
Lemma label_gains_ok ids regular table : table_of ids regular table -> forall ls g g', length g = regular -> label_gains table ls g = Ok g' ->
  length g' = regular /\ forall i, (i < regular)%nat -> (named_by ids ls i -> nth i g' 0 = 1) /\ (~ named_by ids ls i -> nth i g' 0 = nth i g 0).
Proof.
  intros T. induction ls as [|l ls IH]; intros g g' L E; cbn [label_gains] in E.
  - apply Ok_inj in E. subst g'. split; [exact L|]. intros i Hi. split; [intros (x & [] & _)|reflexivity].
  - destruct (lookup table l) as [j|] eqn:EL; [|discriminate]. apply T in EL. destruct EL as [I J].
    destruct (vset_ok g j 1) as (g1 & E1 & L1 & N1); [lia|]. rewrite E1 in E. cbn [bind] in E. destruct (IH g1 g') as [L' N']; [lia|exact E|].
    split; [exact L'|]. intros i Hi. destruct (N' i Hi) as [A B]. split.
    + intros (x & Ix & Iy). destruct (named_by_dec ids ls i) as [D|D]; [exact (A D)|]. rewrite (B D), N1. destruct Ix as [<-|Ix]; [|elim D; exists x; split; assumption].
      destruct (Nat.eqb_spec i j) as [->|NE]; [reflexivity|]. assert (X : lookup table l = Some i) by (apply T; split; [exact Iy|exact Hi]).
      assert (Y : lookup table l = Some j) by (apply T; split; assumption). congruence.
    + intros D. rewrite B, N1; [|intros (x & Ix & Iy); apply D; exists x; split; [now right|exact Iy]].
      destruct (Nat.eqb_spec i j) as [->|NE]; [|reflexivity]. elim D. exists l. split; [now left|exact I].
Qed.
Lemma label_gains_total ids regular table : table_of ids regular table -> forall ls g, length g = regular -> (forall l, In l ls -> exists i, In (l, i) ids /\ (i < regular)%nat) -> exists g', label_gains table ls g = Ok g'.
Proof.
  intros T. induction ls as [|l ls IH]; intros g L K; cbn [label_gains]; [eexists; reflexivity|].
  destruct (K l (or_introl eq_refl)) as (i & I & Hi). rewrite (proj2 (T l i) (conj I Hi)). destruct (vset_ok g i 1) as (g1 & E1 & L1 & N1); [lia|]. rewrite E1. cbn [bind].
  apply IH; [lia|]. intros x Hx. apply K. now right.
Qed.

Lemma square_roots g hf : map_res square_root g = Ok hf -> hf = map sqrt g /\ Forall (fun x => 0 <= x) g.
Proof.
  revert hf. induction g as [|x g IH]; intros hf E; cbn [map_res] in E.
  - apply Ok_inj in E. subst hf. split; [reflexivity|constructor].
  - unfold square_root at 1 in E. destruct (Rltb x 0) eqn:EX; [discriminate|]. cbn [bind] in E. destruct (map_res square_root g) as [l| |]; try discriminate. cbn [bind] in E.
    apply Ok_inj in E. subst hf. destruct (IH l eq_refl) as [-> F]. split; [reflexivity|]. constructor; [now apply Rltb_nlt in EX|exact F].
Qed.
Lemma square_roots_total g : Forall (fun x => 0 <= x) g -> map_res square_root g = Ok (map sqrt g).
Proof.
  induction 1 as [|x g H _ IH]; [reflexivity|]. cbn [map_res map]. unfold square_root at 1. apply Rltb_nlt in H. rewrite H. cbn [bind]. rewrite IH. reflexivity.
Qed.

(** *** Objects *)
Section Objects.
  Variables (epsilon : R) (ids : list (String.string * nat)) (n regular : nat).
  Definition ready (p : panner) : Prop := fits n regular p /\ table_of ids regular (n_table p) /\ a_regular (v_array (n_vbap p)) = regular.
  Definition zero_at (p : panner) (ch : nat) : Prop := cols n regular p ch (repeat 0 regular) (repeat 0 regular) (repeat 0 regular).
  Definition sounds (p p' : panner) (o : scene_object) (k ch : nat) : Prop :=
    exists lf hf df r, voice epsilon ids regular (n_vbap p) o k lf hf df r /\ (n_hf p <> None -> Forall (fun x => 0 <= x) lf)
      /\ cols n regular p' ch (at_level epsilon (n_lfNorm p) (1 - r) lf) (at_level epsilon (n_hfNorm p) (1 - r) hf) (at_level epsilon (n_diffuseNorm p) r df).
  Definition moves (p p' : panner) (chs : list nat) : Prop :=
    config p' = config p /\ ready p' /\ same_outputs p p' /\ forall c, ~ In c chs -> (c < n)%nat -> keeps_all n regular p p' c.
  Lemma same_outputs_refl p : same_outputs p p. Proof using. unfold same_outputs. tauto. Qed.
  Lemma moves_refl p : ready p -> moves p p [].
  Proof using. intros R. split; [reflexivity|]. split; [exact R|]. split; [apply same_outputs_refl|]. intros c _ _. apply keeps_all_refl. Qed.
  Lemma moves_trans p p' p'' l l' : moves p p' l -> moves p' p'' l' -> moves p p'' (l ++ l').
  Proof using.
    intros (A & B & C & D) (A' & B' & C' & D'). split; [congruence|]. split; [exact B'|]. split; [eapply same_outputs_trans; eauto|].
    intros c H L. rewrite in_app_iff in H. eapply keeps_all_trans; [apply D|apply D']; tauto.
  Qed.
  Lemma config_table p p' : config p' = config p -> n_table p' = n_table p. Proof using. unfold config. intros E. now inversion E. Qed.
  Lemma config_vbap p p' : config p' = config p -> n_vbap p' = n_vbap p. Proof using. unfold config. intros E. now inversion E. Qed.
  Lemma config_norms p p' : config p' = config p -> n_lfNorm p' = n_lfNorm p /\ n_hfNorm p' = n_hfNorm p /\ n_diffuseNorm p' = n_diffuseNorm p.
  Proof using. unfold config. intros E. now inversion E. Qed.
  Lemma step_moves p p' ch lf hf df r : ready p -> step_to epsilon n regular p p' ch lf hf df r -> moves p p' [ch].
  Proof using.
    intros (F & T & A) (C & F' & S & K & _). split; [exact C|]. split; [|split; [exact S|]].
    - split; [exact F'|]. rewrite (config_table _ _ C), (config_vbap _ _ C). split; assumption.
    - intros c H L. apply K; [|exact L]. intros ->. apply H. now left.
  Qed.
  Lemma unit_nonneg g ls : length g = regular -> (forall i, (i < regular)%nat -> (named_by ids ls i -> nth i g 0 = 1) /\ (~ named_by ids ls i -> nth i g 0 = nth i (repeat 0 regular) 0)) -> Forall (fun x => 0 <= x) g.
  Proof using.
    intros L N. apply Forall_forall. intros x Hx. apply (In_nth _ _ 0) in Hx. destruct Hx as (i & Hi & <-). rewrite L in Hi. destruct (N i Hi) as [A B].
    destruct (named_by_dec ids ls i) as [D|D]; [rewrite (A D); lra|]. rewrite (B D), nth_repeat0. lra.
  Qed.
  Lemma channel_object_moves d labels full : forall chs p j p', ready p -> (forall c, In c chs -> (c < n)%nat) -> channel_object epsilon p chs d labels j = Ok p' ->
    moves p p' chs /\ forall k ch, nth_error chs k = Some ch -> count_occ Nat.eq_dec chs ch = 1%nat -> sounds p p' (SceneObject full (ChannelObject d labels)) (j + k) ch.
  Proof using.
    induction chs as [|c chs IH]; intros p j p' Rd B E; cbn [channel_object] in E.
    - apply Ok_inj in E. subst p'. split; [now apply moves_refl|]. intros [|k] ch H; discriminate.
    - destruct (nth_error labels j) as [ls|] eqn:ELs; [|discriminate]. pose proof Rd as (F & T & A). pose proof F as (Fn & Fr & _). rewrite Fr in E.
      destruct (label_gains (n_table p) ls (repeat 0 regular)) as [g| |] eqn:EG; try discriminate. cbn [bind] in E.
      destruct (label_gains_ok ids regular _ T ls _ _ (repeat_length 0 regular) EG) as [Lg Ng].
      destruct (write_gains epsilon p c g g g (1 - d) d) as [p1| |] eqn:EW; try discriminate. cbn [bind] in E.
      apply (write_gains_step epsilon n regular) in EW; [|exact F|apply B; now left|exact Lg|intros _; exact Lg|exact Lg].
      pose proof (step_moves _ _ _ _ _ _ _ Rd EW) as M1. destruct (IH p1 (S j) p' (proj1 (proj2 M1)) (fun x Hx => B x (or_intror Hx)) E) as [M2 V].
      split; [exact (moves_trans p p1 p' [c] chs M1 M2)|]. intros [|k] ch Hk Hc.
      + cbn [nth_error] in Hk. apply Some_inj in Hk. subst c. cbn [count_occ] in Hc. destruct (Nat.eq_dec ch ch) as [_|N]; [|contradiction]. apply Nat.succ_inj in Hc.
        apply count_occ_not_In in Hc. exists g, g, g, d. split; [|split].
        * apply (voice_channel _ _ _ _ full d labels (j + 0) ls g); [now rewrite Nat.add_0_r|exact Lg|]. intros i Hi. destruct (Ng i Hi) as [X Y]. split; [exact X|].
          intros D. rewrite (Y D). apply nth_repeat0.
        * intros _. exact (unit_nonneg g ls Lg Ng).
        * destruct M2 as (_ & _ & _ & K). destruct EW as (_ & _ & _ & _ & EW). eapply keeps_cols; [apply K; [exact Hc|apply B; now left]|exact EW].
      + cbn [nth_error] in Hk. assert (I : In ch chs) by (eapply nth_error_In; eauto). apply (count_occ_In Nat.eq_dec) in I.
        cbn [count_occ] in Hc. destruct (Nat.eq_dec c ch) as [->|N]; [lia|]. destruct (V k ch Hk Hc) as (lf & hf & df & r & V1 & V2 & V3). exists lf, hf, df, r.
        destruct M1 as (C1 & _ & S1 & _). rewrite (config_vbap _ _ C1) in V1. destruct (config_norms _ _ C1) as (Q1 & Q2 & Q3). rewrite Q1, Q2, Q3 in V3.
        split; [replace (j + S k)%nat with (S j + k)%nat by lia; exact V1|]. split; [|exact V3]. intros H. apply V2. destruct S1 as (_ & S1 & _). tauto.
  Qed.
  Lemma at_level_zero mode level : at_level epsilon mode level (repeat 0 regular) = repeat 0 regular.
  Proof using.
    unfold at_level. generalize (level / Rmax (size_of mode (repeat 0 regular)) epsilon). intros x. clear. induction regular as [|m IH]; [reflexivity|]. cbn [repeat map]. rewrite IH. f_equal. ring.
  Qed.
  Lemma at_zero mode g : length g = regular -> at_level epsilon mode 0 g = repeat 0 regular.
  Proof using.
    intros <-. unfold at_level. generalize (Rmax (size_of mode g) epsilon). intros x. induction g as [|y g IH]; [reflexivity|]. cbn [map length repeat]. rewrite IH. f_equal. unfold Rdiv. ring.
  Qed.
  Lemma gains_length v pos pw g : a_regular (v_array v) = regular -> calculateGainsUnNormalised v pos pw = Ok g -> length g = regular.
  Proof using.
    intros A E. unfold calculateGainsUnNormalised in E. destruct (calcPlainVBAP v pos pw) as [raw| |]; try discriminate. cbn [bind] in E. apply Ok_inj in E. subst g. now rewrite applyRerouting_length.
  Qed.
  Lemma panned_moves p ch g df r p' : ready p -> (ch < n)%nat -> length g = regular -> length df = regular -> panned epsilon p ch g df r = Ok p' ->
    moves p p' [ch] /\ (n_hf p <> None -> Forall (fun x => 0 <= x) g)
    /\ cols n regular p' ch (at_level epsilon (n_lfNorm p) (1 - r) g) (at_level epsilon (n_hfNorm p) (1 - r) (map sqrt g)) (at_level epsilon (n_diffuseNorm p) r df).
  Proof using.
    intros Rd Hc Lg Ld E. unfold panned in E. destruct (n_hf p) as [h|] eqn:EH.
    - destruct (map_res square_root g) as [hf| |] eqn:ES; try discriminate. cbn [bind] in E. apply square_roots in ES. destruct ES as [-> Fg].
      apply (write_gains_step epsilon n regular) in E; [|exact (proj1 Rd)|exact Hc|exact Lg|intros _; now rewrite map_length|exact Ld].
      split; [eapply step_moves; eauto|]. split; [intros _; exact Fg|]. exact (proj2 (proj2 (proj2 (proj2 E)))).
    - cbn [bind] in E. apply (write_gains_step epsilon n regular) in E; [|exact (proj1 Rd)|exact Hc|exact Lg|intros X; elim X; exact EH|exact Ld].
      split; [eapply step_moves; eauto|]. split; [intros X; elim X; reflexivity|]. destruct E as (_ & _ & S & _ & C1 & C2 & C3). split; [exact C1|]. split; [|exact C3].
      destruct S as (_ & S & _). apply S in EH. unfold col_is. rewrite EH. exact I.
  Qed.
  Lemma panned_total p ch g df r : ready p -> (ch < n)%nat -> length g = regular -> length df = regular -> (n_hf p <> None -> Forall (fun x => 0 <= x) g) -> exists p', panned epsilon p ch g df r = Ok p'.
  Proof using.
    intros Rd Hc Lg Ld Hg. unfold panned. destruct (n_hf p) as [h|] eqn:EH.
    - rewrite square_roots_total by (apply Hg; discriminate). cbn [bind]. apply (write_gains_total epsilon n regular); [exact (proj1 Rd)|exact Hc|exact Lg|intros _; now rewrite map_length|exact Ld].
    - cbn [bind]. apply (write_gains_total epsilon n regular); [exact (proj1 Rd)|exact Hc|exact Lg|intros X; elim X; exact EH|exact Ld].
  Qed.
  Lemma idle_sounds p o k ch : ready p -> zero_at p ch -> voice epsilon ids regular (n_vbap p) o k (repeat 0 regular) (repeat 0 regular) (repeat 0 regular) 0 -> sounds p p o k ch.
  Proof using.
    intros Rd Z V. exists (repeat 0 regular), (repeat 0 regular), (repeat 0 regular), 0. split; [exact V|]. split.
    - intros _. apply Forall_forall. intros x Hx. apply repeat_spec in Hx. subst x. lra.
    - rewrite !at_level_zero. exact Z.
  Qed.
  Lemma moves_weaken p l : ready p -> moves p p l.
  Proof using. intros Rd. destruct (moves_refl p Rd) as (A & B & C & D). repeat (split; [assumption|]). intros c _ L. apply keeps_all_refl. Qed.
  Lemma single_nth (ch c : nat) k : nth_error [ch] k = Some c -> k = 0%nat /\ c = ch.
  Proof using. destruct k as [|[|k]]; cbn; intros E; inversion E; auto. Qed.
  Lemma process_object_moves p o p' : ready p -> (forall c, In c (so_channels o) -> (c < n)%nat) -> process_object epsilon p o = Ok p' ->
    moves p p' (so_channels o)
    /\ forall k ch, nth_error (so_channels o) k = Some ch -> count_occ Nat.eq_dec (so_channels o) ch = 1%nat -> zero_at p ch -> sounds p p' o k ch.
  Proof using.
    intros Rd B E. destruct o as [chs c]. cbn [so_channels] in *. unfold process_object in E. cbn [so_content so_channels] in E. pose proof Rd as (F & T & A). pose proof F as (Fn & Fr & Sz).
    assert (Idle : (c = OtherContent \/ (length chs <> 1%nat /\ forall d labels, c <> ChannelObject d labels)) -> p' = p -> moves p p' chs
      /\ forall k ch, nth_error chs k = Some ch -> count_occ Nat.eq_dec chs ch = 1%nat -> zero_at p ch -> sounds p p' (SceneObject chs c) k ch).
    { intros H ->. split; [now apply moves_weaken|]. intros k ch _ _ Z. apply idle_sounds; [exact Rd|exact Z|]. now apply voice_other. }
    destruct c as [d labels| |az el dist|pos|pos d|].
    - destruct (channel_object_moves d labels chs chs p 0 p' Rd B E) as [M V]. split; [exact M|]. intros k ch H1 H2 _. exact (V k ch H1 H2).
    - destruct chs as [|ch [|ch' chs]]; [apply Ok_inj in E; apply Idle; [right; split; [cbn; lia|discriminate]|now subst]| |apply Ok_inj in E; apply Idle; [right; split; [cbn; lia|discriminate]|now subst]].
      destruct (n_diffuse p) as [d|] eqn:ED.
      + rewrite Fn, Fr in E. destruct (normalise_into epsilon (repeat 1 regular) d ch (n_diffuseNorm p) (stride n) 1) as [d'| |] eqn:EN; try discriminate. cbn [bind] in E. apply Ok_inj in E. subst p'.
        assert (U : updates n regular (n_diffuse p) (Some d') ch (at_level epsilon (n_diffuseNorm p) 1 (repeat 1 regular))).
        { apply (write_to_updates epsilon); [rewrite ED; exact (proj2 (proj2 Sz))|apply B; now left|intros _; apply repeat_length|]. rewrite ED. unfold write_to. rewrite EN. reflexivity. }
        pose proof (stride_ge n) as Hs. split.
        * split; [unfold config; cbn; rewrite Fn, Fr; reflexivity|]. split; [split; [|split; assumption]|].
          -- destruct Sz as (Z1 & Z2 & Z3). split; [reflexivity|]. split; [reflexivity|]. split; [exact Z1|]. split; [exact Z2|]. cbn [n_diffuse]. eapply updates_sized; [exact U|]. rewrite ED. exact Z3.
          -- split; [split; [|split]; cbn [n_lf n_hf n_diffuse]; try tauto; rewrite ED; split; discriminate|]. intros c Nc Lc. split; [|split]; cbn [n_lf n_hf n_diffuse]; try apply keeps_refl.
             eapply updates_keeps; [exact U|intros ->; apply Nc; now left|lia].
        * intros k c Hk _ Z. apply single_nth in Hk. destruct Hk as [-> ->]. exists (repeat 0 regular), (repeat 0 regular), (repeat 1 regular), 1. split; [apply voice_diffuse|]. split.
          -- intros _. apply Forall_forall. intros x Hx. apply repeat_spec in Hx. subst x. lra.
          -- rewrite !at_level_zero. destruct Z as (Z1 & Z2 & Z3). split; [exact Z1|]. split; [exact Z2|]. cbn [n_diffuse]. eapply updates_col; [apply B; now left|exact U].
      + apply Ok_inj in E. subst p'. split; [now apply moves_weaken|]. intros k c Hk _ Z. apply single_nth in Hk. destruct Hk as [-> ->].
        exists (repeat 0 regular), (repeat 0 regular), (repeat 1 regular), 1. split; [apply voice_diffuse|]. split.
        * intros _. apply Forall_forall. intros x Hx. apply repeat_spec in Hx. subst x. lra.
        * rewrite !at_level_zero. destruct Z as (Z1 & Z2 & Z3). split; [exact Z1|]. split; [exact Z2|]. unfold col_is. rewrite ED. exact I.
    - destruct chs as [|ch [|ch' chs]]; [apply Ok_inj in E; apply Idle; [right; split; [cbn; lia|discriminate]|now subst]| |apply Ok_inj in E; apply Idle; [right; split; [cbn; lia|discriminate]|now subst]].
      destruct (calculateGainsUnNormalised (n_vbap p) (spherical2cartesian az el dist) true) as [g| |] eqn:EG; try discriminate. cbn [bind] in E. rewrite Fr in E.
      pose proof (gains_length _ _ _ _ A EG) as Lg. apply panned_moves in E; [|exact Rd|apply B; now left|exact Lg|apply repeat_length]. destruct E as (M & N & C). split; [exact M|].
      intros k c Hk _ _. apply single_nth in Hk. destruct Hk as [-> ->]. exists g, (map sqrt g), (repeat 0 regular), 0. split; [|split; assumption]. apply voice_plane.
      rewrite <- EG. f_equal. unfold spherical2cartesian. apply P3_eq; ring.
    - destruct chs as [|ch [|ch' chs]]; [apply Ok_inj in E; apply Idle; [right; split; [cbn; lia|discriminate]|now subst]| |apply Ok_inj in E; apply Idle; [right; split; [cbn; lia|discriminate]|now subst]].
      destruct (calculateGainsUnNormalised (n_vbap p) pos false) as [g| |] eqn:EG; try discriminate. cbn [bind] in E. rewrite Fr in E.
      pose proof (gains_length _ _ _ _ A EG) as Lg. apply panned_moves in E; [|exact Rd|apply B; now left|exact Lg|apply repeat_length]. destruct E as (M & N & C). split; [exact M|].
      intros k c Hk _ _. apply single_nth in Hk. destruct Hk as [-> ->]. exists g, (map sqrt g), (repeat 0 regular), 0. split; [|split; assumption]. now apply voice_point.
    - destruct chs as [|ch [|ch' chs]]; [apply Ok_inj in E; apply Idle; [right; split; [cbn; lia|discriminate]|now subst]| |apply Ok_inj in E; apply Idle; [right; split; [cbn; lia|discriminate]|now subst]].
      destruct (calculateGainsUnNormalised (n_vbap p) pos false) as [g| |] eqn:EG; try discriminate. cbn [bind] in E. rewrite Fr in E.
      pose proof (gains_length _ _ _ _ A EG) as Lg. apply panned_moves in E; [|exact Rd|apply B; now left|exact Lg|destruct (Rleb epsilon d); apply repeat_length]. destruct E as (M & N & C). split; [exact M|].
      intros k c Hk _ _. apply single_nth in Hk. destruct Hk as [-> ->]. eexists g, (map sqrt g), _, d. split; [|split; [exact N|exact C]].
      destruct (Rleb epsilon d) eqn:ED; [apply Rleb_le in ED; now apply voice_point_diffuse|apply Rleb_nle in ED; now apply voice_point_direct].
    - apply Idle; [left; reflexivity|]. destruct chs as [|ch [|ch' chs]]; apply Ok_inj in E; now subst.
  Qed.

  (** *** Scenes *)
  Lemma process_each_moves : forall os p p', ready p -> (forall o c, In o os -> In c (so_channels o) -> (c < n)%nat) -> process_each epsilon p os = Ok p' ->
    moves p p' (concat (map so_channels os))
    /\ forall o k ch, In o os -> nth_error (so_channels o) k = Some ch -> count_occ Nat.eq_dec (concat (map so_channels os)) ch = 1%nat -> zero_at p ch -> sounds p p' o k ch.
  Proof using.
    induction os as [|o os IH]; intros p p' Rd B E; cbn [process_each] in E.
    - apply Ok_inj in E. subst p'. split; [now apply moves_weaken|]. intros o k ch [].
    - destruct (process_object epsilon p o) as [p1| |] eqn:E1; try discriminate. cbn [bind] in E.
      destruct (process_object_moves p o p1 Rd (fun c Hc => B o c (or_introl eq_refl) Hc) E1) as [M1 V1].
      destruct (IH p1 p' (proj1 (proj2 M1)) (fun o' c Ho Hc => B o' c (or_intror Ho) Hc) E) as [M2 V2]. cbn [map concat].
      split; [exact (moves_trans p p1 p' _ _ M1 M2)|]. intros x k ch Hx Hk Hc Z. rewrite count_occ_app in Hc. pose proof M1 as (C1 & _ & S1 & K1). pose proof M2 as (_ & _ & _ & K2).
      assert (Hn : (ch < n)%nat) by (apply (B x); [exact Hx|eapply nth_error_In; eauto]).
      destruct Hx as [->|Hx].
      + assert (I : In ch (so_channels x)) by (eapply nth_error_In; eauto). apply (count_occ_In Nat.eq_dec) in I.
        destruct (V1 k ch Hk ltac:(lia) Z) as (lf & hf & df & r & W1 & W2 & W3). exists lf, hf, df, r. split; [exact W1|]. split; [exact W2|].
        eapply keeps_cols; [apply K2; [|exact Hn]|exact W3]. apply (count_occ_not_In Nat.eq_dec). lia.
      + assert (I : In ch (concat (map so_channels os))) by (apply in_concat; exists (so_channels x); split; [now apply in_map|eapply nth_error_In; eauto]).
        apply (count_occ_In Nat.eq_dec) in I.
        assert (N1 : ~ In ch (so_channels o)) by (apply (count_occ_not_In Nat.eq_dec); lia).
        destruct (V2 x k ch Hx Hk ltac:(lia)) as (lf & hf & df & r & W1 & W2 & W3); [eapply keeps_cols; [apply K1; assumption|exact Z]|].
        exists lf, hf, df, r. rewrite (config_vbap _ _ C1) in W1. destruct (config_norms _ _ C1) as (Q1 & Q2 & Q3). rewrite Q1, Q2, Q3 in W3.
        split; [exact W1|]. split; [|exact W3]. intros H. apply W2. destruct S1 as (_ & S1 & _). tauto.
  Qed.
  Lemma zero_column m c : column regular n (repeat 0 m) c = repeat 0 regular.
  Proof using.
    apply (nth_ext _ _ 0 0); [rewrite column_length, repeat_length; reflexivity|]. rewrite column_length. intros row Hr. rewrite column_nth by exact Hr. unfold element. now rewrite !nth_repeat0.
  Qed.
  Definition wiped (p : panner) : panner :=
    let clear := fun m : option (list R) => match m with None => None | Some d => Some (repeat 0 (length d)) end in
    Panner (n_objects p) (n_loudspeakers p) (n_table p) (n_vbap p) (n_lfNorm p) (n_hfNorm p) (n_diffuseNorm p) (clear (n_lf p)) (clear (n_hf p)) (clear (n_diffuse p)).
  Lemma wiped_ready p : ready p -> ready (wiped p) /\ config (wiped p) = config p /\ same_outputs p (wiped p) /\ forall ch, zero_at (wiped p) ch.
  Proof using.
    intros ((Fn & Fr & S1 & S2 & S3) & T & A). split; [|split; [reflexivity|split]].
    - split; [|split; assumption]. split; [exact Fn|]. split; [exact Fr|]. unfold wiped. cbn [n_lf n_hf n_diffuse].
      split; [|split]; [destruct (n_lf p)|destruct (n_hf p)|destruct (n_diffuse p)]; cbn [sized] in *; rewrite ?repeat_length; assumption.
    - unfold same_outputs, wiped. cbn [n_lf n_hf n_diffuse]. destruct (n_lf p), (n_hf p), (n_diffuse p); repeat split; intros; try discriminate; reflexivity.
    - intros ch. unfold zero_at, cols, wiped. cbn [n_lf n_hf n_diffuse]. split; [|split]; [destruct (n_lf p)|destruct (n_hf p)|destruct (n_diffuse p)]; cbn [col_is]; try exact I; apply zero_column.
  Qed.
  Lemma process_objects_wiped p os : process_objects epsilon p os = process_each epsilon (wiped p) os. Proof using. reflexivity. Qed.
End Objects.
