(** Port offset tables: lemmas. *)
From Verif Require Import Base FlowModel FlowProofs FlowTree SchedModel SchedProofs LayoutModel.
From Coq Require Import Permutation.
Local Open Scope res_scope.

Fixpoint packed (l : list entry) (start : nat) : Prop :=
  match l with [] => True | e :: l' => e_offset e = start /\ packed l' (start + e_width e) end.
Fixpoint total (l : list entry) : nat := match l with [] => 0 | e :: l' => e_width e + total l' end.
Lemma packed_app l l' start : packed (l ++ l') start <-> packed l start /\ packed l' (start + total l).
Proof.
  revert start. induction l as [|e l IH]; intros start; cbn [packed app total].
  - rewrite Nat.add_0_r. tauto.
  - rewrite IH, Nat.add_assoc. tauto.
Qed.
Lemma total_app l l' : total (l ++ l') = total l + total l'.
Proof. induction l as [|e l IH]; cbn [total app]; [reflexivity|]. rewrite IH. lia. Qed.
Lemma total_perm l l' : Permutation l l' -> total l = total l'.
Proof. induction 1; cbn [total]; lia. Qed.
Lemma packed_bounds l start e : packed l start -> In e l -> start <= e_offset e /\ e_offset e + e_width e <= start + total l.
Proof.
  revert start. induction l as [|f l IH]; intros start P H; [destruct H|]. cbn [packed total] in *. destruct P as [P1 P2].
  destruct H as [<-|H]; [lia|]. specialize (IH _ P2 H). lia.
Qed.
(** two entries at different positions do not overlap *)
Lemma packed_disjoint l start a b c e f : packed l start -> l = a ++ e :: b ++ f :: c -> e_offset e + e_width e <= e_offset f.
Proof.
  intros P ->. apply packed_app in P as [_ P]. cbn [packed] in P. destruct P as [P1 P2].
  apply packed_app in P2 as [_ P2]. cbn [packed] in P2. lia.
Qed.
Lemma packed_cover l start x : packed l start -> start <= x -> x < start + total l ->
  exists e, In e l /\ e_offset e <= x /\ x < e_offset e + e_width e.
Proof.
  revert start. induction l as [|e l IH]; intros start P H1 H2; cbn [packed total] in *; [lia|]. destruct P as [P1 P2].
  destruct (Nat.lt_ge_cases x (start + e_width e)) as [C|C].
  - exists e. split; [now left|lia].
  - destruct (IH (start + e_width e)) as (f & Hf & B); [exact P2|exact C|lia|]. exists f. split; [now right|exact B].
Qed.

Definition table_ok (l : offsets) (next : nat) : Prop :=
  NoDup (map e_port l) /\ exists L, Permutation l L /\ packed L 0 /\ total L = next.

Lemma table_bounds l next e : table_ok l next -> In e l -> e_offset e + e_width e <= next.
Proof. intros (_ & L & P & K & <-) H. rewrite P in H. apply (packed_bounds L 0 e K H). Qed.
Lemma table_disjoint l next e f i j : table_ok l next -> In e l -> In f l -> i < e_width e -> j < e_width f ->
  e_offset e + i = e_offset f + j -> e = f /\ i = j.
Proof.
  intros (ND & L & P & K & _) He Hf Hi Hj E. rewrite P in He, Hf.
  apply in_split in He as (a & b & EL). rewrite EL in Hf. apply in_app_or in Hf as [Hf|[<-|Hf]].
  - exfalso. apply in_split in Hf as (a1 & a2 & ->). rewrite <- app_assoc in EL. cbn [app] in EL.
    pose proof (packed_disjoint L 0 a1 a2 b f e K EL). lia.
  - split; [reflexivity|lia].
  - exfalso. apply in_split in Hf as (b1 & b2 & ->). pose proof (packed_disjoint L 0 a b1 b2 e f K EL). lia.
Qed.
Lemma table_cover l next x : table_ok l next -> x < next -> exists e, In e l /\ e_offset e <= x /\ x < e_offset e + e_width e.
Proof.
  intros (_ & L & P & K & <-) H. destruct (packed_cover L 0 x K) as (e & He & B); [lia|exact H|]. exists e. split; [now rewrite P|exact B].
Qed.
Lemma table_sum l next : table_ok l next -> fold_left (fun n e => n + e_width e) l 0 = next.
Proof.
  intros (_ & L & P & _ & <-).
  assert (G : forall l n, fold_left (fun n e => n + e_width e) l n = n + total l).
  { clear. induction l as [|e l IH]; intros n; cbn [fold_left total]; [lia|]. rewrite IH. lia. }
  rewrite G, (total_perm _ _ P). reflexivity.
Qed.

Lemma offsets_insert_perm e l : ~ In (e_port e) (map e_port l) -> Permutation (offsets_insert e l) (e :: l).
Proof.
  induction l as [|f l IH]; cbn [offsets_insert map In]; intros H; [reflexivity|].
  destruct (e_port e <? e_port f); [reflexivity|]. destruct (Nat.eqb_spec (e_port e) (e_port f)); [exfalso; apply H; left; congruence|].
  rewrite IH by tauto. apply perm_swap.
Qed.
Lemma offsets_find_in l p off : offsets_find l p = Some off -> exists e, In e l /\ e_port e = p /\ e_offset e = off.
Proof.
  unfold offsets_find. destruct (find _ l) as [e|] eqn:E; [|discriminate]. intros H. injection H as <-.
  apply find_some in E as [He Ep]. apply Nat.eqb_eq in Ep. exists e. auto.
Qed.
Lemma nodup_port l e f : NoDup (map e_port l) -> In e l -> In f l -> e_port e = e_port f -> e = f.
Proof.
  induction l as [|g l IH]; cbn [map]; intros ND He Hf E; [destruct He|]. inversion ND as [|? ? Ni ND']; subst.
  destruct He as [<-|He], Hf as [<-|Hf]; auto; exfalso; apply Ni; rewrite ?E; [|rewrite <- E]; now apply in_map.
Qed.
Lemma offsets_find_some l e : NoDup (map e_port l) -> In e l -> offsets_find l (e_port e) = Some (e_offset e).
Proof.
  intros ND He. unfold offsets_find. destruct (find (fun f => e_port f =? e_port e) l) as [f|] eqn:E.
  - apply find_some in E as [Hf Ep]. apply Nat.eqb_eq in Ep. now rewrite (nodup_port l f e ND Hf He Ep).
  - apply find_none with (x := e) in E; [|exact He]. rewrite Nat.eqb_refl in E. discriminate.
Qed.
Lemma table_insert l next p w : table_ok l next -> ~ In p (map e_port l) ->
  table_ok (offsets_insert (Entry p w next) l) (next + w).
Proof.
  intros (ND & L & P & K & T) H. pose proof (offsets_insert_perm (Entry p w next) l H) as Q. split.
  - rewrite (Permutation_map e_port Q). cbn [map e_port]. now constructor.
  - exists (L ++ [Entry p w next]). split; [rewrite Q, P; apply Permutation_cons_append|]. split.
    + apply packed_app. split; [exact K|]. cbn. auto.
    + rewrite total_app, T. cbn. lia.
Qed.

Lemma set_of_in l x : In x (fold_left (fun s p => set_add p s) l []) <-> In x l.
Proof.
  assert (G : forall l s, In x (fold_left (fun s p => set_add p s) l s) <-> In x l \/ In x s).
  { clear l. induction l as [|a l IH]; intros s; cbn [fold_left In]; [tauto|]. rewrite IH, set_add_in. intuition. }
  rewrite G. cbn. tauto.
Qed.
Lemma set_add_nodup x l : (forall i j, i < j -> j < length l -> nth i l 0 < nth j l 0) ->
  forall i j, i < j -> j < length (set_add x l) -> nth i (set_add x l) 0 < nth j (set_add x l) 0.
Proof.
  intros H i j. revert i j. 
  assert (G : forall l, (forall i j, i < j -> j < length l -> nth i l 0 < nth j l 0) -> forall y, (forall z, In z l -> y < z) -> y < x ->
              (forall i j, i < j -> j < length (y :: set_add x l) -> nth i (y :: set_add x l) 0 < nth j (y :: set_add x l) 0)).
  { clear l H. induction l as [|z l IH]; intros H y Hy Hx i j Hij Hj; cbn [set_add] in *.
    - destruct i as [|[|i]], j as [|[|j]]; cbn in *; lia.
    - assert (Hl : forall i j, i < j -> j < length l -> nth i l 0 < nth j l 0) by (intros i' j' A B; apply (H (S i') (S j')); cbn; lia).
      assert (Hz : forall w, In w l -> z < w).
      { intros w Hw. apply In_nth with (d := 0) in Hw as (k & Lk & <-). apply (H 0 (S k)); cbn; lia. }
      destruct (Nat.ltb_spec x z).
      + destruct i as [|i], j as [|j]; cbn [nth] in *; try lia.
        * destruct j as [|j]; cbn [nth]; [exact Hx|]. apply Nat.lt_trans with x; [exact Hx|].
          destruct j as [|j]; cbn [nth]; [assumption|]. apply Nat.lt_trans with z; [assumption|]. apply Hz, nth_In. cbn in Hj. lia.
        * destruct i as [|i], j as [|j]; cbn [nth] in *; try lia.
          -- destruct j as [|j]; cbn [nth]; [assumption|]. apply Nat.lt_trans with z; [assumption|]. apply Hz, nth_In. cbn in Hj. lia.
          -- apply (H i j); cbn in *; lia.
      + destruct (Nat.eqb_spec x z) as [->|N].
        * destruct i as [|i], j as [|j]; cbn [nth] in *; try lia.
          -- apply Hy. destruct j as [|j]; [now left|]. right. apply nth_In. cbn in Hj. lia.
          -- apply (H i j); cbn in *; lia.
        * assert (Hzx : z < x) by lia.
          assert (Lz : forall i j, i < j -> j < length (z :: set_add x l) -> nth i (z :: set_add x l) 0 < nth j (z :: set_add x l) 0)
            by now apply IH.
          destruct i as [|i], j as [|j]; try lia.
          -- cbn [nth]. destruct j as [|j]; cbn [nth]; [apply Hy; now left|].
             apply Nat.lt_trans with z; [apply Hy; now left|]. apply (Lz 0 (S j)); [lia|]. cbn in *. lia.
          -- apply (Lz i j); cbn in *; lia. }
  destruct l as [|z l]; cbn [set_add].
  - intros i j Hij Hj. cbn in Hj. lia.
  - assert (Hl : forall i j, i < j -> j < length l -> nth i l 0 < nth j l 0) by (intros i' j' A B; apply (H (S i') (S j')); cbn; lia).
    assert (Hz : forall w, In w l -> z < w).
    { intros w Hw. apply In_nth with (d := 0) in Hw as (k & Lk & <-). apply (H 0 (S k)); cbn; lia. }
    destruct (Nat.ltb_spec x z).
    + intros i j Hij Hj. destruct i as [|i], j as [|j]; cbn [nth] in *; try lia.
      * destruct j as [|j]; cbn [nth]; [assumption|]. apply Nat.lt_trans with z; [assumption|]. apply Hz, nth_In. cbn in Hj. lia.
      * apply (H i j); cbn in *; lia.
    + destruct (Nat.eqb_spec x z) as [->|N]; [exact H|]. apply G; [exact Hl|exact Hz|lia].
Qed.
Lemma set_of_nodup l : NoDup (fold_left (fun s p => set_add p s) l []).
Proof.
  assert (G : forall l s, (forall i j, i < j -> j < length s -> nth i s 0 < nth j s 0) ->
              let r := fold_left (fun s p => set_add p s) l s in forall i j, i < j -> j < length r -> nth i r 0 < nth j r 0).
  { clear l. induction l as [|a l IH]; intros s H; cbn [fold_left]; [exact H|]. apply IH. now apply set_add_nodup. }
  specialize (G l []). cbn zeta in G. apply NoDup_nth with (d := 0). intros i j Hi Hj E.
  destruct (Nat.lt_trichotomy i j) as [L|[L|L]]; [|exact L|].
  - assert (K : nth i (fold_left (fun s p => set_add p s) l []) 0 < nth j (fold_left (fun s p => set_add p s) l []) 0).
    { apply G; [cbn; lia|exact L|exact Hj]. } lia.
  - assert (K : nth j (fold_left (fun s p => set_add p s) l []) 0 < nth i (fold_left (fun s p => set_add p s) l []) 0).
    { apply G; [cbn; lia|exact L|exact Hi]. } lia.
Qed.

Section Sends.
  Variable o : objects.
  Lemma place_sends_ok ports : NoDup ports ->
    table_ok (fst (place_sends o ports)) (snd (place_sends o ports))
    /\ (forall p, In p (map e_port (fst (place_sends o ports))) <-> In p ports)
    /\ (forall e, In e (fst (place_sends o ports)) -> e_width e = a_width o (e_port e)).
  Proof.
    intros ND. unfold place_sends.
    set (f := fun (st : offsets * nat) p => (offsets_insert (Entry p (a_width o p) (snd st)) (fst st), snd st + a_width o p)).
    assert (G : forall ports (st : offsets * nat), NoDup ports -> (forall p, In p ports -> ~ In p (map e_port (fst st))) -> table_ok (fst st) (snd st) ->
              (forall e, In e (fst st) -> e_width e = a_width o (e_port e)) ->
              table_ok (fst (fold_left f ports st)) (snd (fold_left f ports st))
              /\ (forall p, In p (map e_port (fst (fold_left f ports st))) <-> In p ports \/ In p (map e_port (fst st)))
              /\ (forall e, In e (fst (fold_left f ports st)) -> e_width e = a_width o (e_port e))).
    { clear ports ND. induction ports as [|p ports IH]; intros [l next] ND D T W; cbn [fold_left].
      - split; [exact T|]. split; [|exact W]. intros p. cbn. tauto.
      - inversion ND as [|? ? Ni ND']; subst. cbn [fst snd] in *.
        assert (Hp : ~ In p (map e_port l)) by (apply D; now left).
        pose proof (offsets_insert_perm (Entry p (a_width o p) next) l Hp) as Q.
        pose proof (table_insert l next p (a_width o p) T Hp) as T'.
        destruct (IH (f (l, next) p) ND') as (A & B & C); unfold f at 1; cbn [fst snd].
        + intros q Hq H. rewrite (Permutation_map e_port Q) in H. cbn [map e_port In] in H. destruct H as [<-|H]; [contradiction|].
          apply (D q); [now right|exact H].
        + exact T'.
        + intros e He. rewrite Q in He. destruct He as [<-|He]; [reflexivity|now apply W].
        + split; [exact A|]. split; [|exact C]. intros q. rewrite B. unfold f at 1. cbn [fst snd].
          rewrite (Permutation_map e_port Q). cbn [map e_port In]. tauto. }
    destruct (G ports ([], 0) ND) as (A & B & C).
    - intros p _ [].
    - split; [constructor|]. exists []. repeat split; reflexivity || constructor.
    - intros e [].
    - split; [exact A|]. split; [|exact C]. intros p. rewrite B. cbn. tauto.
  Qed.
End Sends.
