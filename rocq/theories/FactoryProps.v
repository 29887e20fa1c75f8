(** C84: the ids of parameter types and protocols, and the factories. *)
From Coq Require Import String Ascii NArith ListDec.
From Verif Require Import Base ParamModel ParamSpec ParamProofs.
Local Open Scope N_scope.

(** Different parameter types have different ids, and so have different protocols. *)
Theorem C84_ids : (forall t u, type_id t = type_id u -> t = u) /\ (forall k l, kind_id k = kind_id l -> k = l).
Proof. split; [exact type_id_inj|exact kind_id_inj]. Qed.
Example ex_ids : type_id (Vector (RealEl Single)) <> type_id (Vector (RealEl Double)) /\ type_id StringParameter = 15665478247855063790.
Proof. split; [discriminate|vm_compute; reflexivity]. Qed.

(** Names that differ in one character have different ids, whatever the names are; ids have 64 bits;
    whether names with the same ending have the same id does not depend on the ending. *)
Theorem C84_hash : (forall s, hash s < 2 ^ 64)
  /\ (forall a b c c', hash (a ++ String c b) = hash (a ++ String c' b) -> c = c')
  /\ (forall a a' b, hash (a ++ b) = hash (a' ++ b) <-> hash a = hash a').
Proof. split; [exact hash_lt|]. split; [exact hash_character|exact hash_suffix]. Qed.
(* published test vectors of the 64 bit FNV-1 hash *)
Example ex_hash : hash "" = 0xcbf29ce484222325 /\ hash "a" = 0xaf63bd4c8601b7be /\ hash "foobar" = 0x340d8765a4dda9c2.
Proof. vm_compute. repeat split. Qed.
(* a character above 127 is sign extended, unlike in the published hash *)
Example ex_hash_signed : hash (String (ascii_of_nat 255) "") = N.lxor (hash (String (ascii_of_nat 0) "")) (word - 1).
Proof. vm_compute. reflexivity. Qed.

(** After any history of registrations and removals an id refers to the first class that has been
    registered for it since its last removal; the factory creates objects of this class, and for other
    ids it throws std::invalid_argument; the number of types is the number of these ids. *)
Theorem C84_history : forall V (initial : ptype -> shape -> V) h,
  (forall i c, (exists t, current h i t /\ typeExists (after h) i = true /\ create initial (after h) i c = construct initial t c)
     \/ ((forall t, ~ current h i t) /\ typeExists (after h) i = false /\ create initial (after h) i c = Failed (E InvalidArgument)))
  /\ (forall i t u, current h i t -> current h i u -> t = u)
  /\ (exists l, NoDup l /\ numberOfParameterTypes (after h) = List.length l /\ (forall i, In i l <-> exists t, current h i t)).
Proof.
  intros V initial h. split; [|split].
  - intros i c. unfold typeExists, create. destruct (find i (after h)) as [t|] eqn:F.
    + left. exists t. split; [now apply find_current|]. split; reflexivity.
    + right. split; [|split; reflexivity]. intros t Ht. apply find_current in Ht. congruence.
  - intros i t u Ht Hu. apply find_current in Ht, Hu. congruence.
  - exists (map fst (after h)). split; [apply after_nodup|]. split; [unfold numberOfParameterTypes; now rewrite map_length|].
    intros i. split.
    + intros H. destruct (find i (after h)) as [t|] eqn:F; [exists t; now apply find_current|]. apply find_none in F. contradiction.
    + intros [t Ht]. apply find_current in Ht. apply find_in in Ht. now apply (in_map fst) in Ht.
Qed.
Example ex_history :
  let h := [Register 7 IndexedString; Unregister 7; Register 7 ObjectVector; Register 7 FilterRouting; Register 8 StringParameter] in
  current h 7 ObjectVector /\ ~ current h 7 FilterRouting /\ numberOfParameterTypes (after h) = 2%nat.
Proof.
  cbn zeta. split; [|split; [|reflexivity]].
  - exists [Register 7 IndexedString; Unregister 7], [], [Register 7 FilterRouting; Register 8 StringParameter].
    split; [reflexivity|]. split; [right; now exists [Register 7 IndexedString]|]. split; [easy|]. cbn. intros [|[|[]]]; discriminate.
  - intros H. apply find_current in H. discriminate H.
Qed.

(** If classes are registered with their own ids, an object that is created has the requested id. *)
Theorem C84_requested : forall V (initial : ptype -> shape -> V) h i c o,
  own_ids h -> create initial (after h) i c = Done o -> type_id (o_type o) = i.
Proof.
  intros V initial h i c o OW. unfold create. destruct (find i (after h)) as [t|] eqn:F; [|discriminate].
  intros H. assert (T : o_type o = t).
  { destruct t as [[]|[]|[]| | |[]| | | |[[]|[]]| |[| | |[[]|[]]]| | | | |[]|[[]|[]]| |], c; cbn in H; try discriminate H;
      unfold new in H; injection H as <-; reflexivity. }
  rewrite T. apply find_current in F as (h0 & a & b & -> & _). symmetry. apply OW. apply in_or_app. right. apply in_or_app. right. now left.
Qed.
Example ex_requested : exists o, own_ids [Register (type_id StringParameter) StringParameter]
  /\ create (fun _ _ => tt) (after [Register (type_id StringParameter) StringParameter]) (type_id StringParameter) CEmpty = Done o.
Proof.
  eexists. split; [intros i t [[= <- <-]|[]]; reflexivity|]. unfold create, after. cbn [fold_left step].
  unfold register. cbn [find app]. rewrite N.eqb_refl. reflexivity.
Qed.

(** A registrar adds the types of its list, and its end removes them.  The table is as before if none
    of the types was registered before. *)
Theorem C84_registrar : forall l m i t,
  (find i (registrar l m) = Some t <-> find i m = Some t \/ (find i m = None /\ In t l /\ type_id t = i))
  /\ (find i (registrar_end l m) = Some t <-> find i m = Some t /\ (forall u, In u l -> type_id u <> i))
  /\ ((forall u, In u l -> find (type_id u) m = None) -> find i (registrar_end l (registrar l m)) = find i m).
Proof.
  intros l m i t. split; [apply registrar_spec|]. split; [apply registrar_end_spec|]. intros F.
  destruct (find i (registrar_end l (registrar l m))) as [u|] eqn:G.
  - apply registrar_end_spec in G as [G1 G2]. apply registrar_spec in G1 as [G1|(_ & G1 & G3)]; [now symmetry|].
    destruct (G2 u G1 G3).
  - destruct (find i m) as [u|] eqn:H; [|reflexivity].
    assert (X : find i (registrar_end l (registrar l m)) = Some u); [|congruence].
    apply registrar_end_spec. split; [apply registrar_spec; now left|]. intros v Hv E. rewrite <- E, (F v Hv) in H. discriminate.
Qed.
(** Otherwise types are lost: if two registrars contain the same type, the end of one of them removes it. *)
Theorem C84_shared_refuted : exists l l' t,
  In t l /\ find (type_id t) (registrar l []) = Some t /\ find (type_id t) (registrar_end l' (registrar l' (registrar l []))) = None.
Proof.
  exists [StringParameter; ObjectVector], [StringParameter], StringParameter. split; [now left|]. split.
  - apply registrar_spec. right. split; [reflexivity|]. split; [now left|reflexivity].
  - rewrite registrar_end_find. cbn [existsb]. now rewrite N.eqb_refl.
Qed.

(** After the initialisation of the libraries exactly the types of their lists can be created. *)
Theorem C84_libraries : forall i,
  (typeExists (registrar pml_types []) i = true <-> exists t, In t pml_types /\ type_id t = i)
  /\ (typeExists (registrar panningdsp_types (registrar pml_types [])) i = true
      <-> exists t, In t (PanningMatrix :: pml_types) /\ type_id t = i).
Proof.
  intros i. unfold typeExists. split.
  - destruct (find i (registrar pml_types [])) as [t|] eqn:F.
    + split; [|reflexivity]. intros _. apply registrar_spec in F as [F|(_ & F)]; [discriminate|]. now exists t.
    + split; [discriminate|]. intros (t & Ht & E). assert (X : find i (registrar pml_types []) = Some t) by (apply registrar_spec; right; auto).
      congruence.
  - destruct (find i (registrar panningdsp_types (registrar pml_types []))) as [t|] eqn:F.
    + split; [|reflexivity]. intros _. apply registrar_spec in F as [F|(_ & [<-|[]] & F)].
      * apply registrar_spec in F as [F|(_ & F1 & F2)]; [discriminate|]. exists t. split; [now right|exact F2].
      * exists PanningMatrix. split; [now left|exact F].
    + split; [discriminate|]. intros (t & Ht & E).
      assert (X : find i (registrar panningdsp_types (registrar pml_types [])) = Some t); [|congruence].
      apply registrar_spec. destruct Ht as [<-|Ht].
      * destruct (find i (registrar pml_types [])) as [u|] eqn:G; [|right; split; [reflexivity|split; [now left|exact E]]].
        left. apply registrar_spec in G as [G|(_ & _ & G)]; [discriminate|]. f_equal. apply type_id_inj. congruence.
      * left. apply registrar_spec. right. auto.
Qed.
(** Some of the declared types are not in these lists: the factory cannot create them. *)
Theorem C84_declared_refuted : exists t, forall V (initial : ptype -> shape -> V) c,
  create initial (registrar panningdsp_types (registrar pml_types [])) (type_id t) c = Failed (E InvalidArgument).
Proof.
  exists (BiquadCoefficientList Single). intros V initial c. unfold create.
  destruct (find _ _) as [t|] eqn:F; [|reflexivity]. exfalso.
  apply registrar_spec in F as [F|(_ & [<-|[]] & F)]; [apply registrar_spec in F as [F|(_ & F1 & F2)]; [discriminate|]|].
  - apply type_id_inj in F2. subst t. cbn in F1. intuition discriminate.
  - apply type_id_inj in F. discriminate.
Qed.
(** These are the types: *)
Theorem C84_missing : forall t,
  typeExists (registrar panningdsp_types (registrar pml_types [])) (type_id t) = false
  <-> t = LateReverb \/ exists p, t = BiquadCoefficient p \/ t = BiquadCoefficientList p.
Proof.
  intros t. rewrite <- Bool.not_true_iff_false. rewrite (proj2 (C84_libraries (type_id t))). split.
  - intros H. assert (X : ~ In t (PanningMatrix :: pml_types)) by (intros X; apply H; now exists t). clear H.
    destruct t as [p|p|[]| | |[]| | | |[[]|[]]| |[| | |[[]|[]]]| | | | |[]|[[]|[]]| |]; try (exfalso; apply X; cbn; tauto).
    + right. exists p. now left.
    + right. exists p. now right.
    + now left.
  - intros H (u & Hu & E). apply type_id_inj in E. subst u. cbn in Hu.
    destruct H as [->|[p [->| ->]]]; intuition discriminate.
Qed.
Example ex_count : numberOfParameterTypes (registrar pml_types []) = 31%nat.
Proof. vm_compute. reflexivity. Qed.

(** A protocol is registered if neither its id nor its name is in use; otherwise std::invalid_argument
    is thrown.  In all tables that can arise ids and names are unique, and the translations of ids to
    names and of names to ids are inverse to each other. *)
Theorem C84_protocols : forall h,
  NoDup (map e_id (pafter h)) /\ NoDup (map e_name (pafter h))
  /\ (forall e, match pregister e (pafter h) with
                | Ok m => ~ id_taken (pafter h) e /\ ~ name_taken (pafter h) e /\ m = (pafter h ++ [e])%list
                | Throw x => x = InvalidArgument /\ (id_taken (pafter h) e \/ name_taken (pafter h) e)
                | UB => False
                end)
  /\ (forall i s, typeFromName (pafter h) s = Ok i <-> typeToName (pafter h) i = Ok s)
  /\ (forall i s, typeToName (pafter h) i = Ok s <-> exists e, In e (pafter h) /\ e_id e = i /\ e_name e = s)
  /\ (forall i e, In e (punregister i (pafter h)) <-> In e (pafter h) /\ e_id e <> i).
Proof.
  intros h. pose proof (pafter_valid h) as V. split; [apply V|]. split; [apply V|]. split; [intros e; apply pregister_spec|].
  split; [intros i s; now apply names_ids|]. split.
  - intros i s. unfold typeToName. destruct (pfind i (pafter h)) as [e|] eqn:F.
    + apply pfind_some in F as [F1 F2]. split.
      * intros [= <-]. now exists e.
      * intros (e' & H1 & H2 & <-). do 2 f_equal. apply (nodup_map_inj e_id (pafter h)); auto; [apply V|congruence].
    + split; [discriminate|]. intros (e' & H1 & H2 & _). destruct (proj1 (pfind_none _ _) F e' H1 H2).
  - intros i e. unfold punregister. rewrite filter_In, negb_true_iff, N.eqb_neq. intuition.
Qed.
Example ex_protocols :
  let h := map PRegister [own_entry SharedData; PEntry 5 "SharedData" MessageQueue; own_entry MessageQueue] in
  map e_kind (pafter h) = [SharedData; MessageQueue] /\ typeFromName (pafter h) "DoubleBuffering" = Throw OutOfRange.
Proof. vm_compute. split; reflexivity. Qed.

(** The registrar of protocols adds all protocols of its list, or throws and leaves the table as it was. *)
Theorem C84_all_or_nothing : forall l m,
  match pregistrar l m with
  | (m', None) => m' = (m ++ rev l)%list /\ NoDup (map e_id l) /\ NoDup (map e_name l)
                  /\ (forall e, In e l -> ~ id_taken m e /\ ~ name_taken m e)
  | (m', Some x) => x = InvalidArgument /\ m' = m
                    /\ (~ NoDup (map e_id l) \/ ~ NoDup (map e_name l) \/ exists e, In e l /\ (id_taken m e \/ name_taken m e))
  end.
Proof.
  intros l m. pose proof (pregistrar_spec l m) as H. destruct (pregistrar l m) as [m' [x|]].
  - destruct H as (-> & -> & N). split; [reflexivity|]. split; [reflexivity|].
    destruct (ListDec.NoDup_dec N.eq_dec (map e_id l)) as [D1|D1]; [|now left].
    destruct (ListDec.NoDup_dec string_dec (map e_name l)) as [D2|D2]; [|right; now left]. right. right.
    assert (X : forall k, (exists e, In e k /\ (id_taken m e \/ name_taken m e))
                       \/ (forall e, In e k -> ~ id_taken m e /\ ~ name_taken m e)).
    { induction k as [|e k IH]; [right; intros e []|]. destruct IH as [(e' & H1 & H2)|IH]; [left; exists e'; split; [now right|exact H2]|].
      pose proof (pregister_spec e m) as P. destruct (pregister e m) as [m2|x|]; [| |destruct P].
      - right. intros e' [<-|He']; [split; apply P|now apply IH].
      - left. exists e. split; [now left|apply P]. }
    destruct (X l) as [X1|X1]; [exact X1|]. destruct N. split; [exact D1|]. split; [exact D2|exact X1].
  - destruct H as ((A1 & A2 & A3) & ->). auto.
Qed.
Example ex_all_or_nothing :
  pregistrar (map own_entry pml_protocols) [] = (map own_entry [SharedData; MessageQueue; DoubleBuffering], None)
  /\ pregistrar (map own_entry pml_protocols) [own_entry DoubleBuffering] = ([own_entry DoubleBuffering], Some InvalidArgument).
Proof. vm_compute. split; reflexivity. Qed.

Print Assumptions C84_ids.
Print Assumptions C84_hash.
Print Assumptions C84_history.
Print Assumptions C84_requested.
Print Assumptions C84_registrar.
Print Assumptions C84_shared_refuted.
Print Assumptions C84_libraries.
Print Assumptions C84_declared_refuted.
Print Assumptions C84_missing.
Print Assumptions C84_protocols.
Print Assumptions C84_all_or_nothing.
