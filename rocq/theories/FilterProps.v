(** C92: reading and writing filter parameters (src/librbbl/parametric_iir_coefficient.cpp,
    biquad_coefficient.cpp). *)
From Coq Require Import String Ascii ZArith.
From Verif Require Import Base IndexSequenceModel ChannelListModel ObjectVectorModel MsgModel MsgSpec MsgRound MsgDemo FilterModel FilterSpec.
Local Open Scope res_scope.
Local Open Scope list_scope.

Lemma has_attr_path t k s : has_attr t k s <-> exists c, child_opt (attr k) t = Some c /\ t_data c = s.
Proof.
  unfold has_attr, attr. cbn [child_opt]. destruct (kid "<xmlattr>" (t_kids t)) as [a|].
  - destruct (kid k (t_kids a)) as [c|] eqn:E.
    + split; [intros (a' & c' & Ea & Ec & D)|intros (c' & Ec & D); exists a, c'; rewrite E; auto]. injection Ea as <-. rewrite E in Ec. injection Ec as <-. eauto.
    + split; [intros (a' & c' & Ea & Ec & _); injection Ea as <-; congruence|intros (c' & H & _); discriminate].
  - split; [intros (a & c & H & _); discriminate|intros (c & H & _); discriminate].
Qed.
Lemma has_attr_unique t k s s' : has_attr t k s -> has_attr t k s' -> s = s'.
Proof. rewrite !has_attr_path. intros (c & E & <-) (c' & E' & <-). congruence. Qed.
Lemma text_attr t k : match get_text (attr k) t with Ok s => has_attr t k s | Throw e => e = RuntimeError /\ forall s, ~ has_attr t k s | UB => False end.
Proof.
  unfold get_text, child. destruct (child_opt (attr k) t) as [c|] eqn:E; cbn [bind].
  - apply has_attr_path. eauto.
  - split; [reflexivity|]. intros s H. apply has_attr_path in H as (c & H & _). congruence.
Qed.
Lemma type_of_name_iff s ty : eq_of_name s = Ok ty <-> s = eq_name ty.
Proof.
  split; [|intros ->; apply name_eq]. unfold eq_of_name. destruct (find _ all_eqs) as [u|] eqn:E; [|discriminate].
  intros H. injection H as <-. apply find_some in E as [_ E]. unfold text_eqb in E. destruct (list_eq_dec ascii_dec s (eq_name u)); [assumption|discriminate].
Qed.
Lemma type_of_name_throw s : match eq_of_name s with Throw e => e = InvalidArgument | UB => False | Ok _ => True end.
Proof. unfold eq_of_name. now destruct (find _ _). Qed.

Section Floats.
  Context (E : floats).
  Lemma number_opt t k x : number E t k x <-> opt_float E (attr k) t = Some x.
  Proof.
    unfold number, opt_float. split.
    - intros (s & H & R). apply has_attr_path in H as (c & -> & <-). exact R.
    - destruct (child_opt (attr k) t) as [c|] eqn:P; [|discriminate]. intros R. exists (t_data c). split; [apply has_attr_path; eauto|exact R].
  Qed.
  Lemma number_get t k : match get_float E (attr k) t with Ok x => number E t k x | Throw e => e = RuntimeError /\ forall x, ~ number E t k x | UB => False end.
  Proof.
    unfold get_float. destruct (opt_float E (attr k) t) as [x|] eqn:O; [now apply number_opt|]. split; [reflexivity|].
    intros x H. apply number_opt in H. congruence.
  Qed.
  Lemma number_unique t k x y : number E t k x -> number E t k y -> x = y.
  Proof. rewrite !number_opt. congruence. Qed.
  Lemma number_or_iff t k d x : number_or E t k d x <-> float_or E (attr k) d t = x.
  Proof.
    unfold number_or, float_or. destruct (opt_float E (attr k) t) as [y|] eqn:O.
    - apply number_opt in O. split; [intros [H|[H _]]; [now apply (number_unique t k)|now apply H in O]|intros ->; now left].
    - assert (N : forall y, ~ number E t k y) by (intros y H; apply number_opt in H; congruence).
      split; [intros [H|[_ H]]; [now apply N in H|now symmetry]|intros <-; now right].
  Qed.
End Floats.

(** *** Reading XML elements *)
(** Exactly the elements with a known type, frequency and quality are accepted, and the parameters are
    those of the attributes; a gain that is missing or no number is zero. *)
Theorem C92_eq_element : forall E t,
  match load_eq_xml E t with
  | Ok q => eq_element E t q /\ forall q', eq_element E t q' -> q' = q
  | Throw e => (e = RuntimeError \/ e = InvalidArgument) /\ forall q, ~ eq_element E t q
  | UB => False
  end.
Proof.
  intros E t. unfold load_eq_xml. pose proof (text_attr t "type") as T. destruct (get_text (attr "type") t) as [s|e|]; cbn [bind]; [|destruct T as [-> T]; split; [now left|intros q (H & _); now apply T in H]|exact T].
  pose proof (type_of_name_iff s) as N. pose proof (type_of_name_throw s) as N'. destruct (eq_of_name s) as [ty|e|]; cbn [bind]; [| |exact N'].
  2:{ subst e. split; [now right|]. intros q (H & _). assert (X : s = eq_name (q_type q)) by (eapply has_attr_unique; eassumption). apply N in X. discriminate. }
  pose proof (number_get E t "f") as G. destruct (get_float E (attr "f") t) as [f|e|]; cbn [bind]; [|destruct G as [-> G]; split; [now left|intros q (_ & H & _); now apply G in H]|exact G].
  pose proof (number_get E t "q") as Q. destruct (get_float E (attr "q") t) as [x|e|]; cbn [bind]; [|destruct Q as [-> Q]; split; [now left|intros q (_ & _ & H & _); now apply Q in H]|exact Q].
  assert (s = eq_name ty) as -> by now apply N. split.
  - unfold eq_element. cbn [q_type q_freq q_qual q_gain]. repeat split; auto. now apply number_or_iff.
  - intros [ty' f' x' g'] (H1 & H2 & H3 & H4). cbn [q_type q_freq q_qual q_gain] in *.
    assert (Y : eq_name ty = eq_name ty') by (eapply has_attr_unique; eassumption). apply N in Y. injection Y as <-.
    apply number_or_iff in H4. rewrite (number_unique E _ _ _ _ H2 G), (number_unique E _ _ _ _ H3 Q). now rewrite H4.
Qed.
(** The coefficients of a section are divided by a0, which is one if it is missing or no number; they may
    stand in an element biquad of a document. *)
Theorem C92_biquad_element : forall E t,
  let element := match kid "biquad" (t_kids t) with None => t | Some c => c end in
  match load_biquad_xml E t with
  | Ok b => biquad_element E element b /\ forall b', biquad_element E element b' -> b' = b
  | Throw e => e = RuntimeError /\ forall b, ~ biquad_element E element b
  | UB => False
  end.
Proof.
  intros E t element. unfold load_biquad_xml. fold element. generalize element. clear. intros t.
  Ltac next E t k := pose proof (number_get E t k) as G;
    destruct (get_float E (attr k) t) as [?x|?e|]; cbn [bind];
    [|destruct G as [-> G]; split; [reflexivity|intros b (? & ? & ? & ? & ? & ? & _ & H); decompose [and] H; eapply G; eassumption]|exact G].
  next E t "a1"%string. rename G into G1. next E t "a2"%string. rename G into G2. next E t "b0"%string. rename G into G3.
  next E t "b1"%string. rename G into G4. next E t "b2"%string. rename G into G5.
  split.
  - eexists _, _, _, _, _, _. split; [apply number_or_iff; reflexivity|]. repeat split; eassumption.
  - intros b (a0' & b0' & b1' & b2' & a1' & a2' & A0 & B0 & B1 & B2 & A1 & A2 & ->). apply number_or_iff in A0.
    rewrite (number_unique E _ _ _ _ B0 G3), (number_unique E _ _ _ _ B1 G4), (number_unique E _ _ _ _ B2 G5),
      (number_unique E _ _ _ _ A1 G1), (number_unique E _ _ _ _ A2 G2). now rewrite A0.
Qed.
(** Lists: the elements of that name in order, whatever else the document contains. *)
Theorem C92_eq_list : forall E t l, load_eqs_xml E t = Ok l <-> Forall2 (eq_element E) (kids_named "eq" t) l.
Proof.
  intros E t l. unfold load_eqs_xml. revert l. induction (kids_named "eq" t) as [|x r IH]; intros l; cbn [load_each].
  - split; [intros H; injection H as <-; constructor|intros H; inversion H; reflexivity].
  - pose proof (C92_eq_element E x) as X. destruct (load_eq_xml E x) as [q|e|]; cbn [bind]; [| |contradiction].
    + destruct X as [X1 X2]. split.
      * destruct (load_each E r) as [qs|e|]; try discriminate. cbn [bind]. intros H. injection H as <-. constructor; [exact X1|]. now apply IH.
      * intros H. inversion H as [|? y ? l' H1 H2]; subst. apply IH in H2. rewrite H2. cbn [bind]. now rewrite (X2 y H1).
    + destruct X as [_ X]. split; [discriminate|]. intros H. inversion H as [|? y ? l' H1 H2]; subst. now apply X in H1.
Qed.
Theorem C92_biquad_list : forall E t l,
  let document := match kid "filterSpec" (t_kids t) with None => t | Some c => c end in
  Forall (fun x => kid "biquad" (t_kids x) = None) (kids_named "biquad" document) ->
  (load_biquads_xml E t = Ok l <-> Forall2 (biquad_element E) (kids_named "biquad" document) l).
Proof.
  intros E t l document. unfold load_biquads_xml. fold document. revert l. generalize document. clear. intros t.
  induction (kids_named "biquad" t) as [|x r IH]; intros l F; cbn [load_each_biquad].
  - split; [intros H; injection H as <-; constructor|intros H; inversion H; reflexivity].
  - apply Forall_cons_iff in F as [F1 F]. pose proof (C92_biquad_element E x) as X. cbv zeta in X. rewrite F1 in X.
    destruct (load_biquad_xml E x) as [q|e|]; cbn [bind]; [| |contradiction].
    + destruct X as [X1 X2]. split.
      * destruct (load_each_biquad E r) as [qs|e|]; try discriminate. cbn [bind]. intros H. injection H as <-. constructor; [exact X1|]. now apply IH.
      * intros H. inversion H as [|? y ? l' H1 H2]; subst. apply IH in H2; [|exact F]. rewrite H2. cbn [bind]. now rewrite (X2 y H1).
    + destruct X as [_ X]. split; [discriminate|]. intros H. inversion H as [|? y ? l' H1 H2]; subst. now apply X in H1.
Qed.

(** *** Round trips *)
(** An element that is written is read back, and so is a document of such elements. *)
Theorem C92_eq_written : forall E q, eq_faithful E q -> load_eq_xml E (write_eq_xml E q) = Ok q.
Proof.
  intros E q (Hf & Hq & Hg). pose proof (C92_eq_element E (write_eq_xml E q)) as H.
  assert (K : eq_element E (write_eq_xml E q) q).
  { unfold optional_exact in Hg. unfold eq_element, number_or, number, has_attr, write_eq_xml, put_float, attr, put. destruct (tiny E (q_gain q)); cbn.
    - split; [do 2 eexists; repeat split|]. split; [eexists; split; [do 2 eexists; repeat split|exact Hf]|]. split; [eexists; split; [do 2 eexists; repeat split|exact Hq]|].
      right. split; [|exact Hg]. intros y (s & (a & c & A & C & _) & _). injection A as <-. cbn in C. discriminate.
    - split; [do 2 eexists; repeat split|]. split; [eexists; split; [do 2 eexists; repeat split|exact Hf]|]. split; [eexists; split; [do 2 eexists; repeat split|exact Hq]|].
      left. eexists; split; [do 2 eexists; repeat split|exact Hg]. }
  destruct (load_eq_xml E (write_eq_xml E q)) as [q'|e|]; [|destruct H as [_ H]; now apply H in K|contradiction].
  destruct H as [_ H]. now rewrite (H q K).
Qed.
(** Lists of equaliser parameters and of sections in JSON. *)
Theorem C92_json : forall E, libraries E ->
  (forall l, Forall (eq_faithful E) l -> eqs_of_json_text E (eqs_json_text E l) = Ok l)
  /\ (forall l, Forall (biquad_faithful E) l -> biquads_of_json_text E (biquads_json_text E l) = Ok l).
Proof.
  intros E L. split; intros l H.
  - unfold eqs_of_json_text, eqs_json_text, write_eqs_json. rewrite fold_add. cbn [t_kids t_data empty_tree app].
    rewrite (lib_json E L).
    + cbn [t_kids]. induction H as [|q l Hq _ IH]; [reflexivity|]. cbn [map load_eqs]. rewrite (eq_read E q Hq). cbn [bind]. now rewrite IH.
    + constructor. apply Forall_forall. intros p Hp. apply in_map_iff in Hp as (q & <- & _). split; [constructor|]. cbn [snd]. now apply json_eq.
  - unfold biquads_of_json_text, biquads_json_text. pose proof (json_biquads E L l) as J. pose proof (biquads_read E L l H) as R.
    destruct (write_biquads E l) as [d k] eqn:W. assert (d = []) as ->.
    { unfold write_biquads in W. rewrite fold_add in W. cbn [t_data empty_tree] in W. now injection W as <- _. }
    now rewrite (lib_json E L).
Qed.
(** An invalid document leaves a section half changed; if loadJson() succeeds, the old value does not matter. *)
Theorem C92_biquad_assign : forall E b t,
  match load_biquad E t with
  | Ok b' => assign_biquad E b t = (b', Ok tt)
  | Throw e => snd (assign_biquad E b t) = Throw e
  | UB => False
  end.
Proof.
  intros E b t. unfold load_biquad, assign_biquad.
  assert (U : forall p, get_float E p t <> UB) by (intros p; unfold get_float; now destruct (opt_float E p t)).
  pose proof (U ["b0"%string]). destruct (get_float E ["b0"%string] t); cbn [bind]; [|reflexivity|congruence].
  pose proof (U ["b1"%string]). destruct (get_float E ["b1"%string] t); cbn [bind]; [|reflexivity|congruence].
  pose proof (U ["b2"%string]). destruct (get_float E ["b2"%string] t); cbn [bind]; [|reflexivity|congruence].
  pose proof (U ["a1"%string]). destruct (get_float E ["a1"%string] t); cbn [bind]; [|reflexivity|congruence].
  pose proof (U ["a2"%string]). destruct (get_float E ["a2"%string] t); cbn [bind]; [|reflexivity|congruence]. reflexivity.
Qed.

(** *** What does not hold *)
(** No list but the empty one can be read from the XML elements that are written for it. *)
Theorem C92_xml_list_refuted : forall E l, l <> [] -> load_eqs_xml E (write_eqs E l) = Throw RuntimeError.
Proof.
  intros E [|q l] H; [contradiction|]. unfold load_eqs_xml, write_eqs. rewrite fold_add. cbn [t_kids t_data empty_tree app]. rewrite named_all. cbn [map load_each].
  assert (load_eq_xml E (write_eq E q) = Throw RuntimeError) as ->; [|reflexivity].
  unfold load_eq_xml, write_eq, put_float. destruct (tiny E (q_gain q)); reflexivity.
Qed.
(** writeJson() of single parameters loses them: whatever the reader, it cannot restore all. *)
Theorem C92_json_text_refuted : forall E (read : text -> res (eqc E)), exists q, read (eq_json_text E q) <> Ok q.
Proof.
  intros E read. set (q ty := MkEq ty (f0 E) (f0 E) (f0 E) : eqc E).
  assert (S : eq_json_text E (q Peak) = eq_json_text E (q Lowpass)) by reflexivity.
  destruct (read (eq_json_text E (q Lowpass))) as [[ty f x g]|e|] eqn:R.
  - destruct ty; try (exists (q Peak); rewrite S, R; intros H; injection H; discriminate). exists (q Lowpass). rewrite R. intros H. injection H. discriminate.
  - exists (q Peak). rewrite S, R. discriminate.
  - exists (q Peak). rewrite S, R. discriminate.
Qed.
(** No XML text can be read as single parameters, neither by the function for streams nor by that for
    strings, which opens a file of that name. *)
Theorem C92_xml_text_refuted : forall E X file s, documents X ->
  (exists e, eq_of_xml_stream E X s = Throw e) /\ (exists e, eq_of_xml_string E X file s = Throw e)
  /\ (file s = None -> eq_of_xml_string E X file s = Throw InvalidArgument).
Proof.
  intros E X file s D.
  assert (A : forall s, exists e, eq_of_xml_stream E X s = Throw e).
  { intros s'. unfold eq_of_xml_stream. destruct (of_xml X s') as [t|] eqn:O; [|eauto]. apply D in O. exists RuntimeError.
    unfold load_eq_xml, get_text, child, attr. cbn [child_opt]. now rewrite O. }
  split; [apply A|]. unfold eq_of_xml_string. split; [destruct (file s); [apply A|eauto]|]. now intros ->.
Qed.

(** *** Examples *)
Local Notation "# z" := (Some z%Z : num demo) (at level 9, z at level 9).
Definition ex_q (gain : num demo) : eqc demo := MkEq Peak #40 #3 gain.
Definition ex_attrs (l : list (string * text)) : tree := Node [] [("<xmlattr>"%string, Node [] (map (fun p => (fst p, Node (snd p) [])) l))].
Definition ex_doc : tree := Node [] [("filterSpec"%string, Node []
  [("comment"%string, Node (txt "two sections") []);
   ("biquad"%string, ex_attrs [("b0"%string, txt "1"); ("b1"%string, txt "2"); ("b2"%string, txt "3"); ("a1"%string, txt "4"); ("a2"%string, txt "5")]);
   ("biquad"%string, ex_attrs [("a1"%string, txt "9"); ("a2"%string, txt "8"); ("b2"%string, txt "7"); ("b1"%string, txt "6"); ("b0"%string, txt "5")])])].
Example C92_example_faithful : eq_faithful demo (ex_q #(-6)) /\ eq_faithful demo (ex_q #0).
Proof. repeat split; apply demo_exact. Qed.
Example C92_example_eq : load_eq_xml demo (write_eq_xml demo (ex_q #(-6))) = Ok (ex_q #(-6))
  /\ load_eqs_xml demo (Node [] [("eq"%string, write_eq_xml demo (ex_q #5)); ("x"%string, empty_tree); ("eq"%string, write_eq_xml demo (ex_q #0))]) = Ok [ex_q #5; ex_q #0].
Proof. split; reflexivity. Qed.
Example C92_example_json : eqs_of_json_text demo (eqs_json_text demo [ex_q #5; ex_q #0]) = Ok [ex_q #5; ex_q #0].
Proof. apply C92_json; [exact demo_libraries|]. repeat constructor; apply demo_exact. Qed.
(** a gain that is no number is accepted *)
Example C92_example_gain : load_eq_xml demo (ex_attrs [("type"%string, txt "peak"); ("f"%string, txt "40"); ("q"%string, txt "3"); ("gain"%string, txt "loud")]) = Ok (ex_q #0).
Proof. reflexivity. Qed.
Example C92_example_biquads : load_biquads_xml demo ex_doc = Ok [MkBiquad #1 #2 #3 #4 #5; MkBiquad #5 #6 #7 #9 #8].
Proof. reflexivity. Qed.
(** the claim that a failed loadJson() leaves the section as it was is false *)
Theorem C92_assign_refuted : exists b t e, snd (assign_biquad demo b t) = Throw e /\ fst (assign_biquad demo b t) <> b.
Proof.
  exists (MkBiquad #1 #0 #0 #0 #0), (Node [] [("b0"%string, Node (txt "7") [])]), RuntimeError. split; [reflexivity|]. intros H. apply (f_equal (fun b => b_b0 b)) in H. discriminate H.
Qed.
Example C92_example_documents : documents {| of_xml := fun s => match s with [] => None | _ => Some (Node [] [("eq"%string, write_eq_xml demo (ex_q #5))]) end; to_xml := fun _ => [] |}.
Proof. intros s t H. cbn in H. destruct s; [discriminate|]. now injection H as <-. Qed.

Print Assumptions C92_eq_element.
Print Assumptions C92_biquad_element.
Print Assumptions C92_eq_list.
Print Assumptions C92_biquad_list.
Print Assumptions C92_eq_written.
Print Assumptions C92_json.
Print Assumptions C92_biquad_assign.
Print Assumptions C92_xml_list_refuted.
Print Assumptions C92_json_text_refuted.
Print Assumptions C92_xml_text_refuted.
Print Assumptions C92_assign_refuted.
