(** Proofs about the ids and the factories. *)
From Coq Require Import String Ascii NArith.
From Verif Require Import Base ParamModel ParamSpec.
Local Open Scope N_scope.

(** *** The hash *)
Lemma word_pow : word = 2 ^ 64.
Proof. reflexivity. Qed.
Definition inverse : N := 14886173955864302971.
Lemma inverse_prime : (1099511628211 * inverse) mod word = 1.
Proof. vm_compute. reflexivity. Qed.

Lemma scale_inj h h' : h < word -> h' < word ->
  (h * 1099511628211) mod word = (h' * 1099511628211) mod word -> h = h'.
Proof.
  intros L L' E.
  assert (F : forall x, x < word -> (((x * 1099511628211) mod word) * inverse) mod word = x).
  { intros x Lx. rewrite N.mul_mod_idemp_l by discriminate. rewrite <- N.mul_assoc.
    rewrite <- N.mul_mod_idemp_r, inverse_prime, N.mul_1_r by discriminate. now apply N.mod_small. }
  rewrite <- (F h L), <- (F h' L'), E. reflexivity.
Qed.

Lemma lxor_cancel_r a b c : N.lxor a c = N.lxor b c -> a = b.
Proof. intros H. apply (f_equal (fun x => N.lxor x c)) in H. now rewrite !N.lxor_assoc, N.lxor_nilpotent, !N.lxor_0_r in H. Qed.
Lemma lxor_cancel_l a b c : N.lxor c a = N.lxor c b -> a = b.
Proof. rewrite (N.lxor_comm c a), (N.lxor_comm c b). apply lxor_cancel_r. Qed.

Lemma lxor_word a b : a < word -> b < word -> N.lxor a b < word.
Proof.
  rewrite word_pow. intros La Lb.
  assert (E : N.lxor a b mod 2 ^ 64 = N.lxor a b).
  { apply N.bits_inj. intros k. destruct (N.lt_ge_cases k 64) as [Lk|Lk].
    - now rewrite N.mod_pow2_bits_low.
    - rewrite N.mod_pow2_bits_high by exact Lk. rewrite N.lxor_spec.
      rewrite <- (N.mod_small a (2 ^ 64)), <- (N.mod_small b (2 ^ 64)) by assumption.
      now rewrite !N.mod_pow2_bits_high by exact Lk. }
  rewrite <- E. apply N.mod_lt. discriminate.
Qed.

Lemma N_of_ascii_lt c : N_of_ascii c < 256.
Proof. destruct c as [[] [] [] [] [] [] [] []]; reflexivity. Qed.
Lemma char_word_lt c : char_word c < word.
Proof. unfold char_word. pose proof (N_of_ascii_lt c). destruct (N_of_ascii c <? 128); unfold word; lia. Qed.
Lemma char_word_inj c c' : char_word c = char_word c' -> c = c'.
Proof.
  unfold char_word. intros H. pose proof (N_of_ascii_lt c). pose proof (N_of_ascii_lt c').
  assert (E : N_of_ascii c = N_of_ascii c').
  { destruct (N.ltb_spec (N_of_ascii c) 128), (N.ltb_spec (N_of_ascii c') 128); unfold word in H; lia. }
  rewrite <- (ascii_N_embedding c), <- (ascii_N_embedding c'), E. reflexivity.
Qed.

Lemma fnv_step_lt h c : fnv_step h c < word.
Proof. apply lxor_word; [apply N.mod_lt; discriminate|apply char_word_lt]. Qed.
Lemma fnv1_lt s : forall h, h < word -> fnv1 h s < word.
Proof. induction s as [|c s IH]; intros h L; [exact L|]. apply IH, fnv_step_lt. Qed.
Lemma fnv1_inj s : forall h h', h < word -> h' < word -> fnv1 h s = fnv1 h' s -> h = h'.
Proof.
  induction s as [|c s IH]; intros h h' L L' H; [exact H|]. cbn [fnv1] in H.
  apply IH in H; try apply fnv_step_lt. apply lxor_cancel_r in H. now apply scale_inj.
Qed.
Lemma fnv1_app a b : forall h, fnv1 h (a ++ b) = fnv1 (fnv1 h a) b.
Proof. induction a as [|c a IH]; intros h; [reflexivity|]. apply IH. Qed.
Lemma hash_lt s : hash s < word.
Proof. now apply fnv1_lt. Qed.

Lemma hash_character a b c c' : hash (a ++ String c b) = hash (a ++ String c' b) -> c = c'.
Proof.
  unfold hash. rewrite !fnv1_app. cbn [fnv1]. intros H. apply fnv1_inj in H; try apply fnv_step_lt.
  apply lxor_cancel_l in H. now apply char_word_inj.
Qed.
Lemma hash_suffix a a' b : hash (a ++ b) = hash (a' ++ b) <-> hash a = hash a'.
Proof.
  unfold hash. rewrite !fnv1_app. split; [|now intros ->]. intros H. apply fnv1_inj in H; [exact H|now apply fnv1_lt..].
Qed.

(** *** All types *)
Definition all_precisions := [Single; Double].
Definition all_elements := [RealEl Single; RealEl Double; ComplexEl Single; ComplexEl Double].
Definition all_types : list ptype :=
  map BiquadCoefficient all_precisions ++ map BiquadCoefficientList all_precisions ++ map BiquadMatrix all_precisions
  ++ map IndexedVector all_precisions ++ map TimeFrequency all_precisions ++ map Matrix all_elements ++ map Vector all_elements
  ++ map Scalar ([SBool; SInt; SUnsigned] ++ map SElement all_elements)
  ++ [FilterRouting; FilterRoutingList; IndexedString; Interpolation; ListenerPosition; ObjectVector; SignalRouting;
      SparseGainRouting; SparseGainRoutingList; StringParameter; PanningMatrix; LateReverb].
Lemma all_types_complete t : In t all_types.
Proof.
  destruct t as [[]|[]|[]| | |[]| | | |[[]|[]]| |[| | |[[]|[]]]| | | | |[]|[[]|[]]| |]; unfold all_types; cbn; tauto.
Qed.

Fixpoint distinct (l : list N) : bool :=
  match l with [] => true | x :: l' => forallb (fun y => negb (x =? y)) l' && distinct l' end.
Lemma distinct_inj {A} (f : A -> N) l : distinct (map f l) = true -> forall a b, In a l -> In b l -> f a = f b -> a = b.
Proof.
  induction l as [|x l IH]; [easy|]. cbn [map distinct]. intros H. apply andb_prop in H as [H1 H2]. rewrite forallb_forall in H1.
  assert (X : forall y, In y l -> f x <> f y).
  { intros y Hy E. specialize (H1 (f y) (in_map f l y Hy)). rewrite E, N.eqb_refl in H1. discriminate. }
  intros a b [<-|Ha] [<-|Hb] E; [reflexivity| | |now apply IH].
  - destruct (X b Hb E).
  - destruct (X a Ha (eq_sym E)).
Qed.
Lemma ids_distinct : distinct (map type_id all_types) = true.
Proof. vm_compute. reflexivity. Qed.
Lemma type_id_inj t u : type_id t = type_id u -> t = u.
Proof. apply (distinct_inj type_id all_types ids_distinct); apply all_types_complete. Qed.
Lemma kind_id_inj k l : kind_id k = kind_id l -> k = l.
Proof.
  apply (distinct_inj kind_id [DoubleBuffering; MessageQueue; SharedData]).
  - vm_compute. reflexivity.
  - destruct k; cbn; tauto.
  - destruct l; cbn; tauto.
Qed.

(** *** The parameter factory *)
Lemma find_app i m m' : find i (m ++ m') = match find i m with Some t => Some t | None => find i m' end.
Proof. induction m as [|[j t] m IH]; [reflexivity|]. cbn. destruct (i =? j); [reflexivity|exact IH]. Qed.
Lemma find_in i m t : find i m = Some t -> In (i, t) m.
Proof.
  induction m as [|[j u] m IH]; [discriminate|]. cbn [find]. destruct (N.eqb_spec i j) as [<-|].
  - intros [= ->]. now left.
  - intros H. right. auto.
Qed.
Lemma find_none i m : find i m = None <-> ~ In i (map fst m).
Proof.
  induction m as [|[j u] m IH]; [cbn; tauto|]. cbn [find map fst]. destruct (N.eqb_spec i j) as [<-|D].
  - split; [discriminate|]. intros H. destruct H. now left.
  - rewrite IH. cbn. intuition congruence.
Qed.
Lemma find_register i j t m : find i (register j t m)
  = match find i m with Some u => Some u | None => if i =? j then Some t else None end.
Proof.
  unfold register. destruct (find j m) eqn:F.
  - destruct (find i m) eqn:G; [reflexivity|]. destruct (N.eqb_spec i j) as [->|]; congruence.
  - rewrite find_app. destruct (find i m); [reflexivity|]. reflexivity.
Qed.
Lemma find_unregister i j m : find i (unregister j m) = if i =? j then None else find i m.
Proof.
  unfold unregister in *. induction m as [|[k t] m IH]; [now destruct (i =? j)|]. cbn. destruct (N.eqb_spec j k) as [<-|D]; cbn.
  - rewrite IH. now destruct (i =? j).
  - destruct (N.eqb_spec i k) as [->|].
    + destruct (N.eqb_spec k j); congruence.
    + exact IH.
Qed.
Lemma register_nodup i t m : NoDup (map fst m) -> NoDup (map fst (register i t m)).
Proof.
  intros H. unfold register. destruct (find i m) eqn:F; [exact H|]. rewrite map_app. cbn.
  apply find_none in F. revert H F. generalize (map fst m). induction l as [|x l IH]; intros H F; cbn.
  - constructor; [easy|constructor].
  - inversion_clear H. constructor.
    + rewrite in_app_iff. cbn in *. intuition.
    + apply IH; [assumption|]. cbn in F. tauto.
Qed.
Lemma unregister_nodup i m : NoDup (map fst m) -> NoDup (map fst (unregister i m)).
Proof.
  induction m as [|[k t] m IH]; intros H; [exact H|]. cbn. inversion_clear H as [|? ? H1 H2]. destruct (i =? k); cbn; [auto|].
  constructor; [|auto]. intros X. apply H1. apply in_map_iff in X as ([k' t'] & E & X). cbn in E. subst.
  apply filter_In in X as [X _]. now apply (in_map fst) in X.
Qed.
Lemma after_snoc h o : after (h ++ [o]) = step (after h) o.
Proof. unfold after. now rewrite fold_left_app. Qed.
Lemma after_nodup h : NoDup (map fst (after h)).
Proof.
  induction h as [|o h IH] using rev_ind; [constructor|]. rewrite after_snoc. destruct o as [i t|i]; cbn.
  - now apply register_nodup.
  - now apply unregister_nodup.
Qed.

Lemma after_other i a : (forall o, In o a -> op_id o <> i) -> forall m, find i (fold_left step a m) = find i m.
Proof.
  induction a as [|o a IH]; intros H m; [reflexivity|]. cbn [fold_left]. rewrite IH by (intros; apply H; now right).
  specialize (H o (or_introl eq_refl)). destruct o as [j t|j]; cbn in H |- *.
  - rewrite find_register. destruct (find i m); [reflexivity|]. destruct (N.eqb_spec i j); congruence.
  - rewrite find_unregister. destruct (N.eqb_spec i j); congruence.
Qed.
Lemma after_keeps i t b : ~ In (Unregister i) b -> forall m, find i m = Some t -> find i (fold_left step b m) = Some t.
Proof.
  induction b as [|o b IH]; intros H m F; [exact F|]. cbn [fold_left]. apply IH; [intros X; apply H; now right|].
  destruct o as [j u|j]; cbn.
  - now rewrite find_register, F.
  - rewrite find_unregister. destruct (N.eqb_spec i j) as [->|]; [|exact F]. exfalso. apply H. now left.
Qed.

Lemma none_split i h : find i (after h) = None -> exists h0 a, h = h0 ++ a
  /\ (h0 = [] \/ exists h0', h0 = h0' ++ [Unregister i]) /\ (forall o, In o a -> op_id o <> i).
Proof.
  induction h as [|o h IH] using rev_ind; intros F.
  - exists [], []. split; [reflexivity|]. split; [now left|easy].
  - rewrite after_snoc in F. destruct o as [j t|j]; cbn in F.
    + rewrite find_register in F. destruct (find i (after h)) eqn:G; [discriminate|]. destruct (N.eqb_spec i j) as [|D]; [discriminate|].
      destruct (IH eq_refl) as (h0 & a & -> & H0 & Ha). exists h0, (a ++ [Register j t]). rewrite app_assoc. split; [reflexivity|].
      split; [exact H0|]. intros o. rewrite in_app_iff. intros [Ho|[<-|[]]]; [auto|]. cbn. congruence.
    + rewrite find_unregister in F. destruct (N.eqb_spec i j) as [<-|D].
      * exists (h ++ [Unregister i]), []. rewrite app_nil_r. split; [reflexivity|]. split; [|easy]. right. now exists h.
      * destruct (IH F) as (h0 & a & -> & H0 & Ha). exists h0, (a ++ [Unregister j]). rewrite app_assoc. split; [reflexivity|].
        split; [exact H0|]. intros o. rewrite in_app_iff. intros [Ho|[<-|[]]]; [auto|]. cbn. congruence.
Qed.

Lemma find_current h i t : find i (after h) = Some t <-> current h i t.
Proof.
  split.
  - induction h as [|o h IH] using rev_ind; [discriminate|]. rewrite after_snoc.
    assert (X : find i (after h) = Some t -> o <> Unregister i -> current (h ++ [o]) i t).
    { intros F D. destruct (IH F) as (h0 & a & b & -> & H0 & Ha & Hb). exists h0, a, (b ++ [o]).
      split; [now rewrite <- !app_assoc|]. split; [exact H0|]. split; [exact Ha|]. rewrite in_app_iff. intros [|[|[]]]; congruence. }
    destruct o as [j u|j]; cbn [step].
    + rewrite find_register. destruct (find i (after h)) eqn:F; [intros [= ->]; now apply X|].
      destruct (N.eqb_spec i j) as [<-|]; [|discriminate]. intros [= ->]. destruct (none_split i h F) as (h0 & a & -> & H0 & Ha).
      exists h0, a, []. rewrite <- app_assoc. split; [reflexivity|]. split; [exact H0|]. split; [exact Ha|easy].
    + rewrite find_unregister. destruct (N.eqb_spec i j) as [|D]; [discriminate|]. intros F. apply X; congruence.
  - intros (h0 & a & b & -> & H0 & Ha & Hb). unfold after. rewrite !fold_left_app. cbn [fold_left].
    assert (F0 : find i (fold_left step h0 []) = None).
    { destruct H0 as [->|[h0' ->]]; [reflexivity|]. rewrite fold_left_app. cbn. now rewrite find_unregister, N.eqb_refl. }
    apply after_keeps; [exact Hb|]. cbn [step]. rewrite find_register, after_other, F0, N.eqb_refl by exact Ha. reflexivity.
Qed.

(** *** Registrars *)
Lemma registrar_find i l m : find i (registrar l m)
  = match find i m with Some t => Some t | None => List.find (fun t => i =? type_id t) (rev l) end.
Proof.
  induction l as [|t l IH]; cbn [registrar]; [cbn; now destruct (find i m)|]. rewrite find_register, IH.
  destruct (find i m) eqn:F; [reflexivity|]. cbn [rev].
  assert (A : forall (f : ptype -> bool) a b, List.find f (a ++ b) = match List.find f a with Some x => Some x | None => List.find f b end).
  { intros f a b. induction a as [|x a IHa]; [reflexivity|]. cbn. destruct (f x); [reflexivity|exact IHa]. }
  rewrite A. destruct (List.find _ (rev l)); [reflexivity|]. cbn. now destruct (i =? type_id t).
Qed.
Lemma registrar_spec i l m t : find i (registrar l m) = Some t
  <-> find i m = Some t \/ (find i m = None /\ In t l /\ type_id t = i).
Proof.
  rewrite registrar_find. destruct (find i m) as [u|] eqn:F; [intuition congruence|]. split.
  - intros H. apply List.find_some in H as [H1 H2]. apply in_rev in H1. apply N.eqb_eq in H2. right. auto.
  - intros [|(_ & H & <-)]; [discriminate|].
    destruct (List.find (fun u => type_id t =? type_id u) (rev l)) as [u|] eqn:G.
    + apply List.find_some in G as [_ G]. apply N.eqb_eq, type_id_inj in G. now subst.
    + apply in_rev in H. pose proof (List.find_none _ _ G t H) as X. cbn in X. rewrite N.eqb_refl in X. discriminate.
Qed.
Lemma registrar_end_find i l : forall m, find i (registrar_end l m) = if existsb (fun t => i =? type_id t) l then None else find i m.
Proof.
  induction l as [|t l IH]; intros m; [reflexivity|]. cbn. rewrite IH, find_unregister.
  destruct (existsb _ l); [now rewrite orb_true_r|]. rewrite orb_false_r. reflexivity.
Qed.
Lemma registrar_end_spec i l m t : find i (registrar_end l m) = Some t <-> find i m = Some t /\ (forall u, In u l -> type_id u <> i).
Proof.
  rewrite registrar_end_find. destruct (existsb (fun t => i =? type_id t) l) eqn:X.
  - apply existsb_exists in X as (u & Hu & Eu). apply N.eqb_eq in Eu. split; [discriminate|]. intros [_ H]. destruct (H u Hu). auto.
  - split; [|intros [H _]; exact H]. intros H. split; [exact H|]. intros u Hu Eu. apply Bool.not_true_iff_false in X. apply X.
    apply existsb_exists. exists u. split; [exact Hu|]. apply N.eqb_eq. auto.
Qed.

(** *** The protocol factory *)
Lemma pfind_none i m : pfind i m = None <-> forall e, In e m -> e_id e <> i.
Proof.
  unfold pfind. split.
  - intros H e He E. pose proof (List.find_none _ _ H e He) as X. cbn in X. rewrite E, N.eqb_refl in X. discriminate.
  - intros H. destruct (List.find _ m) as [e|] eqn:F; [|reflexivity]. apply List.find_some in F as [F1 F2].
    apply N.eqb_eq in F2. destruct (H e F1). auto.
Qed.
Lemma pfind_some i m e : pfind i m = Some e -> In e m /\ e_id e = i.
Proof. intros H. apply List.find_some in H as [H1 H2]. apply N.eqb_eq in H2. auto. Qed.
Lemma pfind_name_none s m : pfind_name s m = None <-> forall e, In e m -> e_name e <> s.
Proof.
  unfold pfind_name. split.
  - intros H e He E. pose proof (List.find_none _ _ H e He) as X. cbn in X. rewrite E, String.eqb_refl in X. discriminate.
  - intros H. destruct (List.find _ m) as [e|] eqn:F; [|reflexivity]. apply List.find_some in F as [F1 F2].
    apply String.eqb_eq in F2. destruct (H e F1). auto.
Qed.
Lemma pfind_name_some s m e : pfind_name s m = Some e -> In e m /\ e_name e = s.
Proof. intros H. apply List.find_some in H as [H1 H2]. apply String.eqb_eq in H2. auto. Qed.

Lemma pregister_spec e m :
  match pregister e m with
  | Ok m' => ~ id_taken m e /\ ~ name_taken m e /\ m' = (m ++ [e])%list
  | Throw x => x = InvalidArgument /\ (id_taken m e \/ name_taken m e)
  | UB => False
  end.
Proof.
  unfold pregister. destruct (pfind (e_id e) m) as [e'|] eqn:F.
  - apply pfind_some in F as [F1 F2]. split; [reflexivity|]. left. now exists e'.
  - destruct (pfind_name (e_name e) m) as [e'|] eqn:G.
    + apply pfind_name_some in G as [G1 G2]. split; [reflexivity|]. right. now exists e'.
    + pose proof (proj1 (pfind_none _ _) F) as F'. pose proof (proj1 (pfind_name_none _ _) G) as G'. split; [|split; [|reflexivity]].
      * intros (e' & H & X). exact (F' e' H X).
      * intros (e' & H & X). exact (G' e' H X).
Qed.

Definition pvalid (m : ptable) : Prop := NoDup (map e_id m) /\ NoDup (map e_name m).
Lemma nodup_add {A} (x : A) l : NoDup l -> ~ In x l -> NoDup (l ++ [x]).
Proof.
  induction l as [|y l IH]; intros H F; cbn; [constructor; [easy|constructor]|]. inversion_clear H. constructor.
  - rewrite in_app_iff. cbn in *. intuition.
  - apply IH; [assumption|]. cbn in F. tauto.
Qed.
Lemma nodup_filter_map {A B} (f : A -> B) p l : NoDup (map f l) -> NoDup (map f (filter p l)).
Proof.
  induction l as [|x l IH]; intros H; [exact H|]. cbn. inversion_clear H as [|? ? H1 H2]. destruct (p x); cbn; [|auto].
  constructor; [|auto]. intros X. apply H1. apply in_map_iff in X as (y & E & X). apply filter_In in X as [X _].
  apply in_map_iff. now exists y.
Qed.
Lemma pstep_valid m o : pvalid m -> pvalid (pstep m o).
Proof.
  intros [V1 V2]. destruct o as [e|i]; cbn.
  - pose proof (pregister_spec e m) as H. destruct (pregister e m) as [m'|x|]; [|now split..].
    destruct H as (N1 & N2 & ->). unfold pvalid. rewrite !map_app. split; apply nodup_add; auto; intros X; apply in_map_iff in X as (e' & E & X).
    + apply N1. now exists e'.
    + apply N2. now exists e'.
  - split; now apply nodup_filter_map.
Qed.
Lemma pafter_snoc h o : pafter (h ++ [o]) = pstep (pafter h) o.
Proof. unfold pafter. now rewrite fold_left_app. Qed.
Lemma pafter_valid h : pvalid (pafter h).
Proof.
  induction h as [|o h IH] using rev_ind; [split; constructor|]. rewrite pafter_snoc. now apply pstep_valid.
Qed.
Lemma nodup_map_inj {A B} (f : A -> B) l a b : NoDup (map f l) -> In a l -> In b l -> f a = f b -> a = b.
Proof.
  induction l as [|x l IH]; intros H Ha Hb E; [destruct Ha|]. inversion_clear H as [|? ? H1 H2].
  destruct Ha as [->|Ha], Hb as [->|Hb]; auto.
  - destruct H1. rewrite E. now apply in_map.
  - destruct H1. rewrite <- E. now apply in_map.
Qed.
Lemma names_ids m i s : pvalid m -> typeFromName m s = Ok i <-> typeToName m i = Ok s.
Proof.
  intros [V1 V2]. unfold typeFromName, typeToName. split.
  - destruct (pfind_name s m) as [e|] eqn:F; [|discriminate]. intros [= <-]. apply pfind_name_some in F as [F1 <-].
    destruct (pfind (e_id e) m) as [e'|] eqn:G.
    + apply pfind_some in G as [G1 G2]. now rewrite (nodup_map_inj e_id m e' e V1 G1 F1 G2).
    + destruct (proj1 (pfind_none _ _) G e F1 eq_refl).
  - destruct (pfind i m) as [e|] eqn:F; [|discriminate]. intros [= <-]. apply pfind_some in F as [F1 <-].
    destruct (pfind_name (e_name e) m) as [e'|] eqn:G.
    + apply pfind_name_some in G as [G1 G2]. now rewrite (nodup_map_inj e_name m e' e V2 G1 F1 G2).
    + destruct (proj1 (pfind_name_none _ _) G e F1 eq_refl).
Qed.

(** the destructor removes what the constructor has added *)
Lemma punregister_absent i m : (forall e, In e m -> e_id e <> i) -> punregister i m = m.
Proof.
  induction m as [|e m IH]; intros H; [reflexivity|]. cbn.
  destruct (N.eqb_spec i (e_id e)) as [E|]; [destruct (H e (or_introl eq_refl)); auto|]. cbn. f_equal. apply IH. intros x Hx. apply H. now right.
Qed.
Lemma pregistrar_end_app l : forall m, NoDup (map e_id l) -> (forall e, In e l -> ~ id_taken m e) ->
  pregistrar_end l (m ++ rev l) = m.
Proof.
  induction l as [|e l IH]; intros m ND F; cbn [rev pregistrar_end]; [apply app_nil_r|]. inversion_clear ND as [|? ? H1 H2].
  assert (X : punregister (e_id e) (m ++ rev l ++ [e]) = m ++ rev l).
  { unfold punregister. rewrite !filter_app. cbn [filter]. rewrite N.eqb_refl. cbn [negb]. rewrite app_nil_r. f_equal.
    - apply punregister_absent. intros x Hx E. apply (F e (or_introl eq_refl)). now exists x.
    - apply punregister_absent. intros x Hx E. apply H1. apply in_rev in Hx. rewrite <- E. now apply in_map. }
  rewrite X. apply IH; [exact H2|]. intros x Hx. apply F. now right.
Qed.

Definition acceptable (l : list pentry) (m : ptable) : Prop :=
  NoDup (map e_id l) /\ NoDup (map e_name l) /\ (forall e, In e l -> ~ id_taken m e /\ ~ name_taken m e).
Lemma pregistrar_spec l m :
  match pregistrar l m with
  | (m', None) => acceptable l m /\ m' = (m ++ rev l)%list
  | (m', Some x) => x = InvalidArgument /\ m' = m /\ ~ acceptable l m
  end.
Proof.
  induction l as [|e l IH]; cbn [pregistrar].
  - cbn. rewrite app_nil_r. split; [|reflexivity]. split; [constructor|]. split; [constructor|easy].
  - destruct (pregistrar l m) as [m1 [x|]].
    + destruct IH as (-> & -> & N). split; [reflexivity|]. split; [reflexivity|]. intros (A1 & A2 & A3). apply N.
      inversion_clear A1. inversion_clear A2. split; [assumption|]. split; [assumption|]. intros e' He'. apply A3. now right.
    + destruct IH as ((A1 & A2 & A3) & ->). pose proof (pregister_spec e (m ++ rev l)) as H.
      destruct (pregister e (m ++ rev l)) as [m2|x|]; [| |destruct H].
      * destruct H as (N1 & N2 & ->). cbn [rev]. rewrite <- app_assoc. split; [|reflexivity]. split; [|split].
        -- cbn. constructor; [|exact A1]. intros X. apply in_map_iff in X as (e' & E & X). apply N1. exists e'.
           split; [apply in_or_app; right; now apply in_rev in X|exact E].
        -- cbn. constructor; [|exact A2]. intros X. apply in_map_iff in X as (e' & E & X). apply N2. exists e'.
           split; [apply in_or_app; right; now apply in_rev in X|exact E].
        -- intros e' [<-|He']; [|now apply A3]. split.
           ++ intros (y & Hy & Ey). apply N1. exists y. split; [apply in_or_app; now left|exact Ey].
           ++ intros (y & Hy & Ey). apply N2. exists y. split; [apply in_or_app; now left|exact Ey].
      * destruct H as (-> & H). split; [reflexivity|]. split.
        -- apply pregistrar_end_app; [exact A1|]. intros e' He'. now apply A3.
        -- intros (B1 & B2 & B3). cbn in B1, B2. inversion_clear B1 as [|? ? C1 _]. inversion_clear B2 as [|? ? C2 _].
           destruct (B3 e (or_introl eq_refl)) as [D1 D2].
           destruct H as [(y & Hy & Ey)|(y & Hy & Ey)]; apply in_app_or in Hy as [Hy|Hy].
           ++ apply D1. now exists y.
           ++ apply C1. rewrite <- Ey. apply in_map. now apply in_rev.
           ++ apply D2. now exists y.
           ++ apply C2. rewrite <- Ey. apply in_map. now apply in_rev.
Qed.
