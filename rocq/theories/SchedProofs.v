(** Depth-first search: lemmas. *)
From Verif Require Import Base FlowModel FlowProofs SchedModel.
From Coq Require Import Permutation.
Local Open Scope res_scope.

(** [y] stands before [x] in [l] *)
Definition before (y x : nat) (l : list nat) : Prop := exists l1 l2, l = l1 ++ x :: l2 /\ In y l1.
Lemma before_app y x l l' : before y x l -> before y x (l ++ l').
Proof. intros (l1 & l2 & -> & H). exists l1, (l2 ++ l'). split; [now rewrite <- app_assoc|exact H]. Qed.

Section Dfs.
  Variables (es : list edge) (n : nat).
  Hypothesis bounded : forall x y, In (x, y) es -> x < n /\ y < n.

  Inductive path : nat -> nat -> Prop :=
  | path_refl x : path x x
  | path_step x y z : In (x, y) es -> path y z -> path x z.
  Lemma path_trans x y z : path x y -> path y z -> path x z.
  Proof. induction 1; [auto|]. intros H2. eapply path_step; [eassumption|auto]. Qed.
  Definition cycle : Prop := exists x y, In (x, y) es /\ path y x.

  Definition closed (fin : list nat) (back : list edge) : Prop :=
    NoDup fin
    /\ (forall x, In x fin -> x < n)
    /\ (forall x y, In x fin -> In (x, y) es -> before y x fin \/ In (x, y) back)
    /\ (back <> [] -> cycle).

  (** the vertices being visited form a path *)
  Inductive trail : list nat -> Prop :=
  | trail_nil : trail []
  | trail_one x : trail [x]
  | trail_cons x y l : In (y, x) es -> trail (y :: l) -> trail (x :: y :: l).
  Lemma trail_path u gray v : trail (u :: gray) -> In v (u :: gray) -> path v u.
  Proof.
    revert u. induction gray as [|x gray IH]; intros u T H.
    - destruct H as [->|[]]. constructor.
    - inversion T; subst. destruct H as [->|H]; [constructor|].
      apply path_trans with x; [apply IH; [assumption|exact H]|]. eapply path_step; [eassumption|constructor].
  Qed.

  Lemma out_edges_in u v : In v (out_edges es u) <-> In (u, v) es.
  Proof.
    unfold out_edges. rewrite in_map_iff. split.
    - intros ([a b] & <- & H). apply filter_In in H as [H E]. cbn [fst snd] in *. apply Nat.eqb_eq in E. now subst.
    - intros H. exists (u, v). split; [reflexivity|]. apply filter_In. split; [exact H|]. apply Nat.eqb_refl.
  Qed.

  Definition extends (st st' : dfs_state) : Prop :=
    (exists new, fst st' = fst st ++ new) /\ (exists new, snd st' = snd st ++ new).
  Lemma extends_refl st : extends st st.
  Proof. split; exists []; now rewrite app_nil_r. Qed.
  Lemma extends_trans a b c : extends a b -> extends b c -> extends a c.
  Proof.
    intros [[x E1] [y E2]] [[x' E3] [y' E4]]. split.
    - exists (x ++ x'). now rewrite E3, E1, app_assoc.
    - exists (y ++ y'). now rewrite E4, E2, app_assoc.
  Qed.
  Lemma extends_in st st' x : extends st st' -> In x (fst st) -> In x (fst st').
  Proof. intros [[new E] _] H. rewrite E. apply in_or_app. now left. Qed.
  Lemma extends_back st st' e : extends st st' -> In e (snd st) -> In e (snd st').
  Proof. intros [_ [new E]] H. rewrite E. apply in_or_app. now left. Qed.

  Lemma dfs_visit_ok : forall fuel gray u st,
    n <= fuel + length gray -> u < n -> NoDup (u :: gray) -> (forall x, In x gray -> x < n) -> trail (u :: gray) ->
    closed (fst st) (snd st) -> (forall x, In x (u :: gray) -> ~ In x (fst st)) ->
    exists st', dfs_visit es fuel gray u st = Ok st'
      /\ closed (fst st') (snd st') /\ extends st st' /\ In u (fst st')
      /\ (forall x, In x gray -> ~ In x (fst st')).
  Proof using bounded.
    induction fuel as [|fuel IH]; intros gray u st F Hu ND Hg T C W.
    - exfalso. assert (length (u :: gray) <= length (seq 0 n)).
      { apply NoDup_incl_length; [exact ND|]. intros x [<-|Hx]; apply in_seq; [lia|]. specialize (Hg x Hx). lia. }
      rewrite seq_length in H. cbn [length] in H. lia.
    - cbn [dfs_visit].
      assert (G : forall l st, (forall v, In v l -> In (u, v) es) -> closed (fst st) (snd st) ->
                (forall x, In x (u :: gray) -> ~ In x (fst st)) ->
                exists st', fold_left (fun (r : res dfs_state) v =>
                          st <- r ;;
                          if mem v (fst st) then Ok st
                          else if mem v (u :: gray) then Ok (fst st, snd st ++ [(u, v)])
                          else dfs_visit es fuel (u :: gray) v st) l (Ok st) = Ok st'
                  /\ closed (fst st') (snd st') /\ extends st st'
                  /\ (forall v, In v l -> In v (fst st') \/ In (u, v) (snd st'))
                  /\ (forall x, In x (u :: gray) -> ~ In x (fst st'))).
      { clear st C W. induction l as [|v l IHl]; intros st Hl C W; cbn [fold_left].
        - exists st. split; [reflexivity|]. split; [exact C|]. split; [apply extends_refl|]. split; [intros v []|exact W].
        - cbn [bind]. destruct (mem v (fst st)) eqn:E1.
          + apply mem_spec in E1. destruct (IHl st (fun w H => Hl w (or_intror H)) C W) as (st' & E & C' & X & D & W').
            exists st'. split; [exact E|]. split; [exact C'|]. split; [exact X|]. split; [|exact W'].
            intros w [<-|Hw]; [left; now apply extends_in with st|now apply D].
          + destruct (mem v (u :: gray)) eqn:E2.
            * apply mem_spec in E2. destruct (IHl (fst st, snd st ++ [(u, v)])) as (st' & E & C' & X & D & W').
              -- intros w H. apply Hl. now right.
              -- cbn [fst snd]. destruct C as (C1 & C2 & C3 & C4). split; [exact C1|]. split; [exact C2|]. split.
                 ++ intros x y Hx Hy. destruct (C3 x y Hx Hy); [now left|]. right. apply in_or_app. now left.
                 ++ intros _. exists u, v. split; [apply Hl; now left|]. now apply trail_path with gray.
              -- exact W.
              -- exists st'. split; [exact E|]. split; [exact C'|]. split; [|split; [|exact W']].
                 ++ eapply extends_trans; [|exact X]. split; [exists []; now rewrite app_nil_r|now eexists].
                 ++ intros w [<-|Hw]; [|now apply D]. right. eapply extends_back; [exact X|]. cbn [snd].
                    apply in_or_app. right. now left.
            * apply mem_false in E2. apply mem_false in E1. assert (Ev : In (u, v) es) by (apply Hl; now left).
              destruct (IH (u :: gray) v st) as (st1 & Ee & C1 & X1 & I1 & W1).
              -- cbn [length]. lia.
              -- now apply (bounded u v).
              -- now constructor.
              -- intros x [<-|Hx]; [exact Hu|now apply Hg].
              -- now constructor.
              -- exact C.
              -- intros x [<-|Hx]; [exact E1|now apply W].
              -- rewrite Ee. destruct (IHl st1 (fun w H => Hl w (or_intror H)) C1 W1) as (st' & E & C' & X & D & W').
                 exists st'. split; [exact E|]. split; [exact C'|]. split; [now apply extends_trans with st1|]. split; [|exact W'].
                 intros w [<-|Hw]; [left; now apply extends_in with st1|now apply D]. }
      destruct (G (out_edges es u) st) as (st' & E & C' & X & D & W').
      + intros v. apply out_edges_in.
      + exact C.
      + exact W.
      + exists (fst st' ++ [u], snd st'). split.
        { match type of E with ?L = _ => change (bind L (fun st' => Ok (fst st' ++ [u], snd st')) = Ok (fst st' ++ [u], snd st')) end.
          now rewrite E. }
        cbn [fst snd].
        destruct C' as (C1 & C2 & C3 & C4). split; [split; [|split; [|split]]|split; [|split]].
        * apply NoDup_rev in C1. rewrite <- (rev_involutive (fst st' ++ [u])). apply NoDup_rev. rewrite rev_app_distr. cbn [rev app].
          constructor; [|exact C1]. intros H. apply in_rev in H. now apply (W' u (or_introl eq_refl)).
        * intros x Hx. apply in_app_or in Hx as [Hx|[<-|[]]]; [now apply C2|exact Hu].
        * intros x y Hx Hy. apply in_app_or in Hx as [Hx|[<-|[]]].
          -- destruct (C3 x y Hx Hy) as [B|B]; [left; now apply before_app|now right].
          -- destruct (D y (proj2 (out_edges_in _ _) Hy)) as [B|B]; [|now right]. left. exists (fst st'), []. auto.
        * exact C4.
        * destruct X as [[new X1] X2]. split; [|exact X2]. cbn [fst]. rewrite X1. exists (new ++ [u]). now rewrite app_assoc.
        * apply in_or_app. right. now left.
        * intros x Hx H. apply in_app_or in H as [H|[<-|[]]].
          -- now apply (W' x (or_intror Hx)).
          -- now inversion ND.
  Qed.

  Lemma dfs_all_ok : exists st, dfs_all es n = Ok st /\ closed (fst st) (snd st) /\ forall x, x < n -> In x (fst st).
  Proof using bounded.
    unfold dfs_all.
    assert (G : forall l st, (forall x, In x l -> x < n) -> closed (fst st) (snd st) ->
              exists st', fold_left (fun r v => st <- r ;; if mem v (fst st) then Ok st else dfs_visit es n [] v st) l (Ok st) = Ok st'
                /\ closed (fst st') (snd st') /\ extends st st' /\ forall x, In x l -> In x (fst st')).
    { induction l as [|v l IHl]; intros st Hl C; cbn [fold_left].
      - exists st. split; [reflexivity|]. split; [exact C|]. split; [apply extends_refl|intros x []].
      - cbn [bind]. destruct (mem v (fst st)) eqn:E1.
        + apply mem_spec in E1. destruct (IHl st (fun x H => Hl x (or_intror H)) C) as (st' & E & C' & X & D).
          exists st'. split; [exact E|]. split; [exact C'|]. split; [exact X|].
          intros x [<-|Hx]; [now apply extends_in with st|now apply D].
        + apply mem_false in E1. destruct (dfs_visit_ok n [] v st) as (st1 & E & C1 & X1 & I1 & _).
          * cbn. lia.
          * apply Hl. now left.
          * repeat constructor. intros [].
          * intros x [].
          * constructor.
          * exact C.
          * intros x [<-|[]]. exact E1.
          * rewrite E. destruct (IHl st1 (fun x H => Hl x (or_intror H)) C1) as (st' & E' & C' & X & D).
            exists st'. split; [exact E'|]. split; [exact C'|]. split; [now apply extends_trans with st1|].
            intros x [<-|Hx]; [now apply extends_in with st1|now apply D]. }
    destruct (G (seq 0 n) ([], [])) as (st & E & C & _ & D).
    - intros x Hx. apply in_seq in Hx. lia.
    - split; [constructor|]. split; [intros x []|]. split; [intros x y []|]. intros H. now contradiction H.
    - exists st. split; [exact E|]. split; [exact C|]. intros x Hx. apply D, in_seq. lia.
  Qed.

  Lemma before_irrefl x l : NoDup l -> ~ before x x l.
  Proof. intros ND (l1 & l2 & -> & H). apply NoDup_remove_2 in ND. apply ND. apply in_or_app. now left. Qed.
  Lemma before_trans x y z l : NoDup l -> before x y l -> before y z l -> before x z l.
  Proof.
    intros ND (l1 & l2 & -> & H) (k1 & k2 & E' & H').
    apply in_split in H' as (a & b & ->). exists (a ++ y :: b), k2. split; [exact E'|].
    (* the two splittings at y coincide *)
    assert (l1 = a) as <-.
    { clear - ND E'. rewrite <- app_assoc in E'. cbn [app] in E'. revert a E'. induction l1 as [|c l1 IH]; intros [|c' a] E'; cbn [app] in E'.
      - reflexivity.
      - exfalso. injection E' as <- E'. cbn [app] in ND. apply NoDup_cons_iff in ND as [Ni _]. apply Ni. rewrite E'. apply in_or_app. right. now left.
      - exfalso. injection E' as -> E'. cbn [app] in ND. apply NoDup_cons_iff in ND as [Ni _]. apply Ni. apply in_or_app. right. now left.
      - injection E' as <- E'. f_equal. apply IH; [|exact E']. cbn [app] in ND. now inversion ND. }
    apply in_or_app. now left.
  Qed.
  Lemma before_in x y l : before x y l -> In x l /\ In y l.
  Proof. intros (l1 & l2 & -> & H). split; apply in_or_app; [now left|right; now left]. Qed.

  Lemma no_back_acyclic fin : closed fin [] -> (forall x, x < n -> In x fin) -> ~ cycle.
  Proof using bounded.
    intros (ND & _ & B & _) All (x & y & E & P).
    assert (K : forall a b, path a b -> a < n -> a = b \/ before b a fin).
    { induction 1 as [a|a b c Hab _ IH]; intros Ha; [now left|]. right.
      assert (Hb : b < n) by now apply (bounded a b). destruct (B a b (All a Ha) Hab) as [L|[]].
      destruct (IH Hb) as [<-|R]; [exact L|]. now apply before_trans with b. }
    assert (Hx : x < n /\ y < n) by now apply bounded. destruct Hx as [Hx Hy].
    destruct (B x y (All x Hx) E) as [L|[]]. destruct (K y x P Hy) as [->|R].
    - now apply (before_irrefl x fin ND).
    - apply (before_irrefl x fin ND). now apply before_trans with y.
  Qed.
End Dfs.

(** *** the schedule for an edge list *)
Lemma set_add_in x y l : In y (set_add x l) <-> y = x \/ In y l.
Proof.
  induction l as [|z l IH]; cbn [set_add In]; [intuition|]. destruct (Nat.ltb_spec x z); [cbn; intuition|].
  destruct (Nat.eqb_spec x z) as [->|]; cbn [In]; [intuition|]. rewrite IH. intuition.
Qed.
Lemma set_add_length x l : length (set_add x l) <= S (length l).
Proof.
  induction l as [|z l IH]; cbn [set_add length]; [lia|]. destruct (x <? z); [cbn; lia|].
  destruct (x =? z); cbn [length]; lia.
Qed.
Lemma set_add_new x l : ~ In x l -> Permutation (set_add x l) (x :: l).
Proof.
  induction l as [|z l IH]; cbn [set_add In]; intros H; [reflexivity|]. destruct (Nat.ltb_spec x z); [reflexivity|].
  destruct (Nat.eqb_spec x z) as [->|]; [tauto|]. rewrite IH by tauto. apply perm_swap.
Qed.
Lemma sorted_atoms_perm atoms : NoDup atoms -> Permutation (sorted_atoms atoms) atoms.
Proof.
  unfold sorted_atoms. intros ND.
  assert (G : forall l s, NoDup l -> (forall x, In x l -> ~ In x s) -> Permutation (fold_left (fun s a => set_add a s) l s) (l ++ s)).
  { induction l as [|x l IH]; intros s N D; [reflexivity|]. cbn [fold_left app]. inversion N as [|? ? Ni N']; subst.
    rewrite IH; [|exact N'|].
    - rewrite set_add_new; [|apply D; now left]. symmetry. apply Permutation_middle.
    - intros y Hy H. apply set_add_in in H as [->|H]; [contradiction|]. apply (D y); [now right|exact H]. }
  rewrite G; [now rewrite app_nil_r|exact ND|intros x _ []].
Qed.

Lemma schedule_ok es atoms :
  NoDup atoms -> (forall x y, In (x, y) es -> x < 2 + length atoms /\ y < 2 + length atoms) ->
  match sequentialSchedule es atoms with
  | Ok sched => ~ cycle es /\ Permutation sched atoms
      /\ forall i j a b, In (2 + i, 2 + j) es -> nth_error atoms i = Some a -> nth_error atoms j = Some b -> before a b sched
  | Throw InvalidArgument => cycle es
  | _ => False
  end.
Proof.
  intros ND HB. set (n := 2 + length atoms) in *. unfold sequentialSchedule. fold n. unfold checkAcyclicGraph.
  destruct (dfs_visit_ok es n HB n [] 0 ([], [])) as (st0 & E0 & (_ & _ & _ & C0) & _).
  { cbn. lia. } { unfold n. lia. } { repeat constructor. intros []. } { intros x []. } { constructor. }
  { split; [constructor|]. split; [intros x []|]. split; [intros x y []|]. intros H. now contradiction H. }
  { intros x _ []. }
  rewrite E0. cbn [bind]. destruct (snd st0) as [|e0 b0] eqn:Eb0; cbn [negb].
  2:{ apply C0. discriminate. }
  destruct (dfs_all_ok es n HB) as (st & E & C & All). rewrite E. cbn [bind].
  destruct (snd st) as [|e b] eqn:Eb.
  2:{ destruct C as (_ & _ & _ & C). apply C. discriminate. }
  pose proof (no_back_acyclic es n HB (fst st) C All) as NC.
  destruct C as (NF & CF & CB & _).
  assert (PF : Permutation (fst st) (seq 0 n)).
  { apply NoDup_Permutation; [exact NF|apply seq_NoDup|]. intros x. rewrite in_seq. split; [intros H; apply CF in H; lia|intros H; apply All; lia]. }
  assert (LF : length (fst st) = 2 + length (sorted_atoms atoms)).
  { rewrite PF, seq_length, (sorted_atoms_perm atoms ND). reflexivity. }
  rewrite LF, Nat.eqb_refl. cbn [negb]. split; [exact NC|]. split.
  - assert (P2 : Permutation (filter (fun v => 2 <=? v) (rev (fst st))) (seq 2 (length atoms))).
    { assert (FP : forall l l' : list nat, Permutation l l' -> Permutation (filter (fun v => 2 <=? v) l) (filter (fun v => 2 <=? v) l')).
      { induction 1; cbn [filter]; [constructor|destruct (2 <=? x); auto| |etransitivity; eassumption].
        destruct (2 <=? x), (2 <=? y); auto. apply perm_swap. }
      rewrite (FP _ _ (Permutation_sym (Permutation_rev (fst st)))), (FP _ _ PF). unfold n. cbn [Nat.add seq filter Nat.leb].
      assert (FI : forall l, (forall x, In x l -> 2 <= x) -> filter (fun v => 2 <=? v) l = l).
      { induction l as [|x l IHl]; intros Hl; [reflexivity|]. cbn [filter]. rewrite (proj2 (Nat.leb_le 2 x)) by (apply Hl; now left).
        f_equal. apply IHl. intros y Hy. apply Hl. now right. }
      rewrite FI; [reflexivity|]. intros x Hx. apply in_seq in Hx. lia. }
    etransitivity; [apply Permutation_map, P2|].
    assert (EM : map (fun v => nth (v - 2) atoms 0) (seq 2 (length atoms)) = atoms); [|rewrite EM; reflexivity].
    apply nth_ext with (d := 0) (d' := 0); [now rewrite map_length, seq_length|].
    intros i Hi. rewrite map_length, seq_length in Hi.
    set (f := fun v => nth (v - 2) atoms 0). rewrite (nth_indep _ 0 (f 0)) by now rewrite map_length, seq_length.
    rewrite map_nth, seq_nth by exact Hi. unfold f. f_equal. lia.
  - intros i j a b He Hi Hj. assert (Hb : 2 + i < n) by now apply (HB _ _ He).
    destruct (CB (2 + i) (2 + j) (All _ Hb) He) as [(l1 & l2 & El & H1)|[]].
    apply in_split in H1 as (k1 & k2 & ->).
    assert (ER : rev (fst st) = rev l2 ++ (2 + i) :: rev k2 ++ (2 + j) :: rev k1).
    { rewrite El, rev_app_distr. cbn [rev]. rewrite rev_app_distr. cbn [rev]. now rewrite <- !app_assoc. }
    rewrite ER.
    exists (map (fun v => nth (v - 2) atoms 0) (filter (fun v => 2 <=? v) (rev l2)) ++ a :: map (fun v => nth (v - 2) atoms 0) (filter (fun v => 2 <=? v) (rev k2))).
    exists (map (fun v => nth (v - 2) atoms 0) (filter (fun v => 2 <=? v) (rev k1))).
    assert (Na : nth (2 + i - 2) atoms 0 = a) by (replace (2 + i - 2) with i by lia; now apply nth_error_nth).
    assert (Nb : nth (2 + j - 2) atoms 0 = b) by (replace (2 + j - 2) with j by lia; now apply nth_error_nth).
    split; [|apply in_or_app; right; now left].
    rewrite filter_app, map_app. cbn [filter Nat.leb Nat.add map]. rewrite filter_app, map_app. cbn [filter Nat.leb Nat.add map].
    change (S (S i)) with (2 + i). change (S (S j)) with (2 + j).
    rewrite Na, Nb. rewrite <- ?app_assoc. cbn [app]. reflexivity.
Qed.
