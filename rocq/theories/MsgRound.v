(** Every faithful object is read back from its own message. *)
From Coq Require Import String Ascii ZArith Sorted.
From Verif Require Import Base IndexSequenceModel IndexSequenceProofs ChannelListModel ChannelListProofs
  OrdSet ObjectVectorModel ObjectVectorProps MsgModel MsgSpec MsgProofs.
Local Open Scope Z_scope.
Local Open Scope res_scope.

(** ** Trees *)
Definition leaf (s : text) : tree := Node s [].
Lemma kid_at_kid k k' f l :
  kid k' (at_kid k f l) = if String.eqb k' k then Some (f (match kid k l with Some c => c | None => empty_tree end)) else kid k' l.
Proof.
  induction l as [|[a t] l IH]; cbn [at_kid kid].
  - destruct (String.eqb_spec k' k) as [->|]; reflexivity.
  - destruct (String.eqb_spec k a) as [->|Na]; cbn [kid].
    + destruct (String.eqb_spec k' a) as [->|]; reflexivity.
    + destruct (String.eqb_spec k' a) as [->|N'].
      * destruct (String.eqb_spec a k) as [->|]; [congruence|reflexivity].
      * exact IH.
Qed.
Lemma kid_put k k' p v t : kid k' (t_kids (put (k :: p) v t)) =
  if String.eqb k' k then Some (put p v (match kid k (t_kids t) with Some c => c | None => empty_tree end)) else kid k' (t_kids t).
Proof. cbn [put t_kids]. apply kid_at_kid. Qed.
Lemma kid_put_child k k' c t : kid k' (t_kids (put_child k c t)) = if String.eqb k' k then Some c else kid k' (t_kids t).
Proof. unfold put_child. cbn [t_kids]. apply kid_at_kid. Qed.
Lemma kid_app k l l' : kid k (l ++ l') = match kid k l with Some c => Some c | None => kid k l' end.
Proof. induction l as [|[a t] l IH]; [reflexivity|]. cbn. now destruct (String.eqb k a). Qed.
Lemma kid_add_child k k' c t : kid k' (t_kids (add_child k c t)) =
  match kid k' (t_kids t) with Some x => Some x | None => if String.eqb k' k then Some c else None end.
Proof. unfold add_child. cbn [t_kids]. rewrite kid_app. reflexivity. Qed.
Lemma filter_none k (l : list (string * tree)) : kid k l = None -> filter (fun p => String.eqb k (fst p)) l = [].
Proof. induction l as [|[a t] l IH]; [reflexivity|]. cbn. destruct (String.eqb k a); [discriminate|exact IH]. Qed.
Lemma at_kid_none k f l : kid k l = None -> at_kid k f l = l ++ [(k, f empty_tree)].
Proof.
  induction l as [|[a t] l IH]; [reflexivity|]. cbn. destruct (String.eqb k a); [discriminate|].
  intros H. now rewrite IH.
Qed.
Lemma named_put_child k c t : kid k (t_kids t) = None -> kids_named k (put_child k c t) = [c].
Proof.
  intros H. unfold kids_named, put_child. cbn [t_kids]. rewrite at_kid_none by exact H.
  rewrite filter_app, (filter_none k _ H). cbn. now rewrite String.eqb_refl.
Qed.
Lemma named_other k k' c t : String.eqb k k' = false -> kid k' (t_kids t) = None ->
  kids_named k (put_child k' c t) = kids_named k t.
Proof.
  intros N H. unfold kids_named, put_child. cbn [t_kids]. rewrite at_kid_none by exact H.
  rewrite filter_app. cbn. rewrite N. now rewrite app_nil_r.
Qed.
Lemma fold_add {X} k (f : X -> tree) l : forall t,
  fold_left (fun t x => add_child k (f x) t) l t = Node (t_data t) (t_kids t ++ map (fun x => (k, f x)) l).
Proof.
  induction l as [|x l IH]; intros t; [destruct t; cbn; now rewrite app_nil_r|].
  cbn [fold_left map]. rewrite IH. unfold add_child. cbn [t_data t_kids]. now rewrite <- app_assoc.
Qed.
Lemma named_all {X} k (f : X -> tree) d l : kids_named k (Node d (map (fun x => (k, f x)) l)) = map f l.
Proof.
  unfold kids_named. cbn [t_kids]. induction l as [|x l IH]; [reflexivity|]. cbn. rewrite String.eqb_refl. cbn. now rewrite IH.
Qed.

Ltac keys :=
  repeat (rewrite kid_put || rewrite kid_put_child || rewrite kid_add_child);
  repeat match goal with
         | |- context [String.eqb ?a ?b] =>
             first [is_var a; fail 1 | is_var b; fail 1 |
                    let r := eval vm_compute in (String.eqb a b) in change (String.eqb a b) with r]
         end;
  cbn beta iota.

Section Round.
  Context (E : floats) (L : libraries E).
  Local Notation exact := (exact E).

  Lemma opt_some k t s : kid k (t_kids t) = Some (leaf s) -> opt_float E [k] t = readf E s.
  Proof. intros H. unfold opt_float, child_opt. now rewrite H. Qed.
  Lemma opt_none k t : kid k (t_kids t) = None -> opt_float E [k] t = None.
  Proof. intros H. unfold opt_float, child_opt. now rewrite H. Qed.
  Lemma get_exact k t x : exact x -> kid k (t_kids t) = Some (leaf (showf E x)) -> get_float E [k] t = Ok x.
  Proof. intros H K. unfold get_float. rewrite (opt_some k t _ K), H. reflexivity. Qed.
  Lemma or_exact k t x d : exact x -> kid k (t_kids t) = Some (leaf (showf E x)) -> float_or E [k] d t = x.
  Proof. intros H K. unfold float_or. now rewrite (opt_some k t _ K), H. Qed.
  Lemma or_none k t d : kid k (t_kids t) = None -> float_or E [k] d t = d.
  Proof. intros H. unfold float_or. now rewrite (opt_none k t H). Qed.
  Lemma or_optional k t c x : optional_exact E c x ->
    kid k (t_kids t) = (if c x then None else Some (leaf (showf E x))) -> float_or E [k] (f0 E) t = x.
  Proof.
    unfold optional_exact. destruct (c x); intros H K; [|now apply or_exact].
    rewrite (or_none k t _ K). now symmetry.
  Qed.
  Lemma text_leaf k t s : kid k (t_kids t) = Some (leaf s) -> get_text [k] t = Ok s.
  Proof. intros H. unfold get_text, child, child_opt. now rewrite H. Qed.
  Lemma unsigned_leaf k t n : 0 <= n <= UINT_MAX -> kid k (t_kids t) = Some (leaf (print_size n)) -> get_unsigned [k] t = Ok n.
  Proof. intros H K. unfold get_unsigned. rewrite (text_leaf k t _ K). cbn [bind]. now rewrite read_print. Qed.
  Lemma byte_leaf k t n : 0 <= n <= 255 -> kid k (t_kids t) = Some (leaf (print_size n)) -> get_byte [k] t = Ok n.
  Proof.
    intros H K. unfold get_byte. rewrite (unsigned_leaf k t n) by (auto; unfold UINT_MAX; lia).
    cbn [bind]. now rewrite (proj2 (Z.leb_le n 255)) by lia.
  Qed.

  (** ** Names *)
  Lemma text_eqb_refl s : text_eqb s s = true.
  Proof. unfold text_eqb. destruct (list_eq_dec ascii_dec s s); congruence. Qed.
  Lemma name_type ty : type_of_name (type_name ty) = Ok ty.
  Proof. destruct ty; reflexivity. Qed.
  Lemma name_eq ty : eq_of_name (eq_name ty) = Ok ty.
  Proof. destruct ty; reflexivity. Qed.

  (** ** Filters *)
  Lemma eq_read q : eq_faithful E q -> load_eq E (write_eq E q) = Ok q.
  Proof.
    intros (Hf & Hq & Hg).
    set (t := write_eq E q).
    assert (K : kid "type" (t_kids t) = Some (leaf (eq_name (q_type q)))
              /\ kid "f" (t_kids t) = Some (leaf (showf E (q_freq q)))
              /\ kid "q" (t_kids t) = Some (leaf (showf E (q_qual q)))
              /\ kid "gain" (t_kids t) = if tiny E (q_gain q) then None else Some (leaf (showf E (q_gain q)))).
    { subst t. unfold write_eq, put_float. destruct (tiny E (q_gain q)); keys; auto. }
    destruct K as (K1 & K2 & K3 & K4). unfold load_eq.
    rewrite (text_leaf _ _ _ K1), (get_exact _ _ _ Hf K2), (get_exact _ _ _ Hq K3). cbn [bind].
    rewrite name_eq. cbn [bind]. rewrite (or_optional _ _ _ _ Hg K4). now destruct q.
  Qed.
  Lemma eqs_read l : Forall (eq_faithful E) l -> load_eqs E (t_kids (write_eqs E l)) = Ok l.
  Proof.
    intros H. unfold write_eqs. rewrite fold_add. cbn [t_kids t_data empty_tree app].
    induction H as [|q l Hq _ IH]; [reflexivity|]. cbn [map load_eqs]. rewrite (eq_read q Hq). cbn [bind].
    rewrite IH. reflexivity.
  Qed.
  Lemma biquad_read b : biquad_faithful E b -> load_biquad E (write_biquad E b) = Ok b.
  Proof.
    intros (H0 & H1 & H2 & H3 & H4). unfold load_biquad.
    rewrite (or_none "a0") by (unfold write_biquad, put_float; keys; reflexivity).
    rewrite (get_exact "b0" _ _ H0), (get_exact "b1" _ _ H1), (get_exact "b2" _ _ H2), (get_exact "a1" _ _ H3), (get_exact "a2" _ _ H4)
      by (unfold write_biquad, put_float; keys; reflexivity).
    cbn [bind]. rewrite !(lib_div E L). now destruct b.
  Qed.
  Lemma biquads_read l : Forall (biquad_faithful E) l -> load_biquads E (kids_named "" (write_biquads E l)) = Ok l.
  Proof.
    intros H. unfold write_biquads. rewrite fold_add. cbn [t_kids t_data empty_tree app]. rewrite named_all.
    induction H as [|q l Hq _ IH]; [reflexivity|]. cbn [map load_biquads]. rewrite (biquad_read q Hq). cbn [bind].
    rewrite IH. reflexivity.
  Qed.

  (** ** Common members *)
  Definition common_kid (ty : obj_type) (id : nat) (b : body E) (k : string) : option tree :=
    if String.eqb k "type" then Some (leaf (type_name ty))
    else if String.eqb k "channels" then Some (leaf (join (txt ", ") (map print_size (o_channels b))))
    else if String.eqb k "id" then Some (leaf (print_size (Z.of_nat id)))
    else if String.eqb k "group" then Some (leaf (print_size (o_group b)))
    else if String.eqb k "level" then Some (leaf (showf E (o_level b)))
    else if String.eqb k "priority" then Some (leaf (print_size (o_priority b)))
    else if String.eqb k "eq" then match o_eq b with [] => None | _ => Some (write_eqs E (o_eq b)) end
    else None.
  Lemma kid_common ty id b k : kid k (t_kids (write_common E ty id b empty_tree)) = common_kid ty id b k.
  Proof.
    unfold write_common, common_kid, put_float. destruct (o_eq b); keys;
      repeat match goal with |- context [String.eqb k ?s] => destruct (String.eqb_spec k s); [subst; reflexivity|] end;
      reflexivity.
  Qed.
  Definition holds_common (ty : obj_type) (id : nat) (b : body E) (t : tree) : Prop :=
    forall k, In k ["type"; "channels"; "id"; "group"; "level"; "priority"; "eq"]%string ->
    kid k (t_kids t) = common_kid ty id b k.
  Definition common_ok (b : body E) : Prop :=
    0 <= o_group b <= UINT_MAX /\ 0 <= o_priority b <= 255 /\ exact (o_level b)
    /\ Forall (fun c => 0 <= c <= INT_MAX) (o_channels b) /\ Forall (eq_faithful E) (o_eq b).
  Lemma common_read ty id b t old : common_ok b -> holds_common ty id b t ->
    parse_common E t old = Ok (with_load b (o_load old)).
  Proof.
    intros (G & P & Lv & C & Q) H. unfold parse_common, parse_channels.
    rewrite (text_leaf "channels" t _ (H "channels"%string ltac:(cbn; tauto))). cbn [bind].
    rewrite (channels_read _ C). cbn [bind].
    rewrite (unsigned_leaf "group" t _ G (H "group"%string ltac:(cbn; tauto))). cbn [bind].
    rewrite (get_exact "level" t _ Lv (H "level"%string ltac:(cbn; tauto))). cbn [bind].
    rewrite (byte_leaf "priority" t _ P (H "priority"%string ltac:(cbn; tauto))). cbn [bind].
    rewrite (H "eq"%string ltac:(cbn; tauto)). cbn [common_kid].
    change (common_kid ty id b "eq") with (match o_eq b with [] => None | _ => Some (write_eqs E (o_eq b)) end).
    destruct (o_eq b) as [|q l] eqn:Eq; cbn [bind].
    - unfold with_load. now rewrite Eq.
    - rewrite (eqs_read _ Q). cbn [bind]. unfold with_load. now rewrite Eq.
  Qed.

  (** ** Positions *)
  Definition position_tree (x y z : num E) : tree :=
    Node [] [("x"%string, leaf (showf E x)); ("y"%string, leaf (showf E y)); ("z"%string, leaf (showf E z))].
  Lemma position_read x y z : exact x -> exact y -> exact z -> parse_position E (position_tree x y z) = Ok (x, y, z).
  Proof.
    intros X Y Z. unfold parse_position. cbv zeta.
    rewrite (opt_some "x" (position_tree x y z) (showf E x) eq_refl).
    rewrite (opt_some "y" (position_tree x y z) (showf E y) eq_refl).
    rewrite (opt_some "z" (position_tree x y z) (showf E z) eq_refl).
    rewrite !(opt_none _ (position_tree x y z)) by reflexivity.
    red in X, Y, Z. rewrite X, Y, Z. reflexivity.
  Qed.
  Definition point_kid (ty : obj_type) (id : nat) (b : body E) (p : point E) (k : string) : option tree :=
    if String.eqb k "position" then Some (position_tree (p_x p) (p_y p) (p_z p))
    else if String.eqb k "channelLock" then (if is0 E (p_lock p) then None else Some (leaf (showf E (p_lock p))))
    else common_kid ty id b k.
  Lemma kid_point ty id b p k : kid k (t_kids (write_point E ty id b p empty_tree)) = point_kid ty id b p k.
  Proof.
    unfold write_point, point_kid, put_float. destruct (is0 E (p_lock p)); keys; rewrite !kid_common; keys;
      repeat match goal with |- context [String.eqb k ?s] => destruct (String.eqb_spec k s); [subst; reflexivity|] end;
      reflexivity.
  Qed.
  Definition holds_point (p : point E) (t : tree) : Prop :=
    kid "position" (t_kids t) = Some (position_tree (p_x p) (p_y p) (p_z p))
    /\ kid "channelLock" (t_kids t) = if is0 E (p_lock p) then None else Some (leaf (showf E (p_lock p))).
  Lemma point_read ty id b p t old : common_ok b -> point_faithful E p -> holds_common ty id b t -> holds_point p t ->
    parse_point E t old = Ok (with_load b (o_load old), p).
  Proof.
    intros C (X & Y & Z & K) H [P Q]. unfold parse_point. rewrite (common_read ty id b t old C H). cbn [bind].
    unfold child at 1, child_opt. rewrite P. cbn [bind]. rewrite (position_read _ _ _ X Y Z). cbn [bind try_].
    rewrite (or_optional _ _ _ _ K Q). now destruct p.
  Qed.

  (** ** Objects *)
  Lemma common_all ty id b t : (forall k, In k ["type"; "channels"; "id"; "group"; "level"; "priority"; "eq"]%string ->
      kid k (t_kids t) = kid k (t_kids (write_common E ty id b empty_tree))) -> holds_common ty id b t.
  Proof. intros H k Hk. now rewrite (H k Hk), kid_common. Qed.
  Lemma point_common ty id b p k : In k ["type"; "channels"; "id"; "group"; "level"; "priority"; "eq"]%string ->
    point_kid ty id b p k = common_kid ty id b k.
  Proof. intros H. cbn in H. repeat (destruct H as [<-|H]; [reflexivity|]). contradiction. Qed.

  Lemma nine_read k t l : exact_nine E l -> kid k (t_kids t) = Some (leaf (seq_text E l)) -> get_nine E k t = Ok l.
  Proof.
    intros [H1 H2] K. unfold get_nine. rewrite (text_leaf _ _ _ K). cbn [bind]. unfold seq_text. rewrite H2. cbn [bind].
    now rewrite H1.
  Qed.
  Lemma reflection_read r : reflection_faithful E r -> parse_reflection E (write_reflection E r) = Ok r.
  Proof.
    intros (X & Y & Z & D & Lv & N & B). unfold parse_reflection.
    set (t := write_reflection E r).
    assert (K : kid "position" (t_kids t) = Some (position_tree (r_x r) (r_y r) (r_z r))
             /\ kid "delay" (t_kids t) = Some (leaf (showf E (r_delay r)))
             /\ kid "level" (t_kids t) = Some (leaf (showf E (r_level r)))
             /\ kid "biquadsos" (t_kids t) = Some (write_biquads E (r_filters r))).
    { subst t. unfold write_reflection, put_float. keys. auto. }
    destruct K as (K1 & K2 & K3 & K4).
    unfold child at 1, child_opt. rewrite K1. cbn [bind]. rewrite (position_read _ _ _ X Y Z). cbn [bind].
    rewrite (get_exact _ _ _ D K2), (get_exact _ _ _ Lv K3). cbn [bind].
    unfold child, child_opt. rewrite K4. cbn [bind]. rewrite (biquads_read _ B). cbn [bind].
    unfold pad_filters, ten. rewrite N. cbn [Nat.ltb Nat.leb Nat.sub repeat bind]. rewrite app_nil_r. cbn [bind]. now destruct r.
  Qed.
  Lemma reflections_read l : Forall (reflection_faithful E) l ->
    parse_reflections E (map (write_reflection E) l) = Ok l.
  Proof.
    intros H. induction H as [|r l Hr _ IH]; [reflexivity|]. cbn [map parse_reflections].
    rewrite (reflection_read r Hr). cbn [bind]. now rewrite IH.
  Qed.

  (** ** Trees which JSON can express *)
  Definition jkid (p : string * tree) : Prop := seven_bit (list_ascii_of_string (fst p)) /\ json_tree (snd p).
  Definition jt (t : tree) : Prop := t_data t = [] /\ Forall jkid (t_kids t).
  Lemma jt_json t : jt t -> json_tree t.
  Proof. destruct t as [d l]. intros [H1 H2]. cbn in H1, H2. subst d. now constructor. Qed.
  Lemma jt_empty : jt empty_tree.
  Proof. split; [reflexivity|constructor]. Qed.
  Lemma jt_app t k c : jt t -> seven_bit (list_ascii_of_string k) -> json_tree c -> jt (Node (t_data t) (t_kids t ++ [(k, c)])).
  Proof.
    intros [H1 H2] S J. split; [exact H1|]. cbn [t_kids]. apply Forall_app. split; [exact H2|].
    constructor; [|constructor]. now split.
  Qed.
  Lemma jt_put k v t : kid k (t_kids t) = None -> seven_bit (list_ascii_of_string k) -> seven_bit v -> jt t -> jt (put [k] v t).
  Proof.
    intros K S V J. cbn [put]. rewrite at_kid_none by exact K. apply jt_app; [exact J|exact S|]. now constructor.
  Qed.
  Lemma jt_put_child k c t : kid k (t_kids t) = None -> seven_bit (list_ascii_of_string k) -> json_tree c -> jt t -> jt (put_child k c t).
  Proof. intros K S V J. unfold put_child. rewrite at_kid_none by exact K. now apply jt_app. Qed.
  Lemma jt_add_child k c t : seven_bit (list_ascii_of_string k) -> json_tree c -> jt t -> jt (add_child k c t).
  Proof. intros S V J. unfold add_child. now apply jt_app. Qed.
  Lemma at_kid_last k f l c : kid k l = None -> at_kid k f (l ++ [(k, c)]) = l ++ [(k, f c)].
  Proof.
    induction l as [|[a t] l IH]; cbn; intros H; [now rewrite String.eqb_refl|].
    destruct (String.eqb k a); [discriminate|]. now rewrite IH.
  Qed.
  Lemma put_three k a b c x y z t : kid k (t_kids t) = None -> String.eqb b a = false -> String.eqb c a = false -> String.eqb c b = false ->
    put [k; c] z (put [k; b] y (put [k; a] x t))
    = Node (t_data t) (t_kids t ++ [(k, Node [] [(a, leaf x); (b, leaf y); (c, leaf z)])]).
  Proof.
    intros K H1 H2 H3. cbn [put t_data t_kids]. rewrite (at_kid_none k _ (t_kids t) K).
    rewrite at_kid_last by exact K. rewrite at_kid_last by exact K. cbn. rewrite H1. cbn. now rewrite H2, H3.
  Qed.
  Lemma jt_three k a b c x y z t : kid k (t_kids t) = None -> String.eqb b a = false -> String.eqb c a = false -> String.eqb c b = false ->
    Forall (fun s => seven_bit (list_ascii_of_string s)) [k; a; b; c] ->
    seven_bit x -> seven_bit y -> seven_bit z -> jt t -> jt (put [k; c] z (put [k; b] y (put [k; a] x t))).
  Proof.
    intros K H1 H2 H3 S X Y Z J. rewrite put_three by assumption.
    inversion S as [|? ? Sk S']; subst. inversion S' as [|? ? Sa S'']; subst. inversion S'' as [|? ? Sb S3]; subst.
    inversion S3 as [|? ? Sc _]; subst.
    apply jt_app; [exact J|exact Sk|]. apply json_inner.
    repeat (constructor; [split; [assumption|now constructor]|]). constructor.
  Qed.
  Ltac seven := cbv; repeat constructor; lia.
  Lemma seven_app a b : seven_bit a -> seven_bit b -> seven_bit (a ++ b).
  Proof. intros. now apply Forall_app. Qed.
  Lemma seven_join sep l : seven_bit sep -> Forall seven_bit l -> seven_bit (join sep l).
  Proof.
    intros S H. induction H as [|a l Ha _ IH]; [constructor|]. cbn [join]. destruct l; [exact Ha|].
    apply seven_app; [exact Ha|]. now apply seven_app.
  Qed.

  Lemma seven_print n : 0 <= n -> seven_bit (print_size n).
  Proof.
    intros H. destruct (print_size_ok n H) as (_ & F & _). eapply Forall_impl; [|exact F].
    intros c Hc. unfold is_digit in Hc. cbn beta in Hc. apply andb_prop in Hc. destruct Hc as [_ Hc].
    apply Nat.leb_le in Hc. lia.
  Qed.
  Lemma seven_type ty : seven_bit (type_name ty).
  Proof. destruct ty; seven. Qed.
  Lemma seven_eq ty : seven_bit (eq_name ty).
  Proof. destruct ty; seven. Qed.
  Ltac newkey := unfold put_float; keys; rewrite ?kid_common, ?kid_point; try reflexivity.
  Ltac jput := apply jt_put; [| seven | |].

  Lemma json_adds {X} k (f : X -> tree) l : seven_bit (list_ascii_of_string k) -> Forall (fun x => json_tree (f x)) l ->
    jt (Node [] (map (fun x => (k, f x)) l)).
  Proof.
    intros S H. split; [reflexivity|]. cbn [t_kids]. induction H; constructor; [now split|assumption].
  Qed.
  Lemma json_eq q : json_tree (write_eq E q).
  Proof.
    apply jt_json. unfold write_eq.
    assert (J : jt (put_float E ["q"%string] (q_qual q)
             (put_float E ["f"%string] (q_freq q) (put ["type"%string] (eq_name (q_type q)) empty_tree)))).
    { unfold put_float. jput; [newkey|apply (lib_show E L)|]. jput; [newkey|apply (lib_show E L)|].
      jput; [reflexivity|apply seven_eq|apply jt_empty]. }
    destruct (tiny E (q_gain q)); [exact J|]. jput; [newkey|apply (lib_show E L)|exact J].
  Qed.
  Lemma json_eqs l : json_tree (write_eqs E l).
  Proof.
    apply jt_json. unfold write_eqs. rewrite fold_add. cbn [t_kids t_data empty_tree app].
    apply (json_adds "eq" (write_eq E)); [seven|]. apply Forall_forall. intros; apply json_eq.
  Qed.
  Lemma json_biquads l : json_tree (write_biquads E l).
  Proof.
    apply jt_json. unfold write_biquads. rewrite fold_add. cbn [t_kids t_data empty_tree app].
    apply (json_adds "" (write_biquad E)); [seven|]. apply Forall_forall. intros b _. apply jt_json.
    unfold write_biquad, put_float. do 5 (jput; [newkey|apply (lib_show E L)|]). apply jt_empty.
  Qed.
  Lemma json_common ty id b : common_ok b -> jt (write_common E ty id b empty_tree).
  Proof.
    intros (G & P & _ & C & _). unfold write_common, put_float. cbv zeta.
    assert (J : jt (put ["priority"%string] (print_size (o_priority b))
      (put ["level"%string] (showf E (o_level b))
         (put ["group"%string] (print_size (o_group b))
            (put ["id"%string] (print_size (Z.of_nat id))
               (put ["channels"%string] (join (txt ", ") (map print_size (o_channels b)))
                  (put ["type"%string] (type_name ty) empty_tree))))))).
    { jput; [newkey|apply seven_print; lia|]. jput; [newkey|apply (lib_show E L)|]. jput; [newkey|apply seven_print; lia|].
      jput; [newkey|apply seven_print; lia|]. jput; [newkey| |].
      - apply seven_join; [seven|]. apply Forall_map. eapply Forall_impl; [|exact C]. cbn. intros c Hc. apply seven_print; lia.
      - jput; [newkey|apply seven_type|apply jt_empty]. }
    destruct (o_eq b); [exact J|]. apply jt_add_child; [seven|apply json_eqs|exact J].
  Qed.
  Lemma json_point ty id b p : common_ok b -> jt (write_point E ty id b p empty_tree).
  Proof.
    intros C. unfold write_point, put_float. cbv zeta.
    assert (J : jt (put ["position"%string; "z"%string] (showf E (p_z p))
      (put ["position"%string; "y"%string] (showf E (p_y p))
         (put ["position"%string; "x"%string] (showf E (p_x p)) (write_common E ty id b empty_tree))))).
    { apply jt_three; try reflexivity; try apply (lib_show E L); [newkey|repeat (constructor; [seven|]); constructor|now apply json_common]. }
    destruct (is0 E (p_lock p)); [exact J|]. jput; [newkey|apply (lib_show E L)|exact J].
  Qed.
  Lemma json_reflection r : json_tree (write_reflection E r).
  Proof.
    apply jt_json. unfold write_reflection. apply jt_add_child; [seven|apply json_biquads|]. unfold put_float.
    apply jt_three; try reflexivity; try apply (lib_show E L); [repeat (constructor; [seven|]); constructor|].
    jput; [newkey|apply (lib_show E L)|]. jput; [newkey|apply (lib_show E L)|apply jt_empty].
  Qed.
  Lemma seven_seq l : seven_bit (seq_text E l).
  Proof. apply seven_join; [seven|]. apply Forall_map, Forall_forall. intros; apply (lib_show6 E L). Qed.
  Lemma seven_outputs l t : Forall (Forall label) l -> print_outputs l = Ok t -> seven_bit t.
  Proof.
    intros H P. destruct l as [|o l]; [discriminate|]. apply Ok_inj in P. subst t.
    assert (A : forall a, label a -> seven_bit a).
    { intros a [_ Ha]. eapply Forall_impl; [|exact Ha]. intros c Hc. apply char_seven, letter_cases, Hc. }
    apply seven_join; [seven|]. apply Forall_map. eapply Forall_impl; [|exact H]. cbn beta. intros x Hx.
    assert (B : Forall seven_bit x) by (eapply Forall_impl; [exact A|exact Hx]).
    unfold print_output. destruct x as [|a [|a' x]]; [seven|now inversion B|].
    apply seven_app; [seven|]. apply seven_app; [|seven]. apply seven_join; [seven|exact B].
  Qed.

  (** ** Every type of object *)
  Lemma faithful_common b : body_faithful E b -> common_ok b.
  Proof. intros (G & P & Lv & C & Q & _). now repeat split. Qed.
  Lemma with_own (b : body E) p q : o_load b = p -> with_load (with_load b q) p = b.
  Proof. intros <-. now destruct b. Qed.
  Ltac common_of := let k := fresh "k" in let Hk := fresh "Hk" in
    intros k Hk; cbn [In] in Hk;
    repeat (destruct Hk as [<-|Hk]; [unfold put_float; keys; rewrite ?kid_common, ?kid_point; reflexivity|]); contradiction.
  Definition read_back (id : nat) (b : body E) : Prop :=
    exists t p, write_object E id b = Ok t /\ jt t /\ holds_common (load_type (o_load b)) id b t
      /\ parse_as E (load_type (o_load b)) = Ok p /\ forall old, p t old = Ok b.
  Lemma point_holds ty id b p : holds_point p (write_point E ty id b p empty_tree).
  Proof. split; rewrite kid_point; reflexivity. Qed.
  Lemma read_point id b : body_faithful E b -> load_type (o_load b) = TPoint -> read_back id b.
  Proof.
    intros H T. unfold read_back, write_object. destruct (o_load b) as [p|p d|p d w h e|p er l|az el d| |n|outs d] eqn:Eb; try discriminate.
    exists (write_point E TPoint id b p empty_tree). eexists. split; [reflexivity|].
    pose proof (faithful_common b H) as C. split; [now apply json_point|].
    assert (HC : holds_common TPoint id b (write_point E TPoint id b p empty_tree)) by common_of.
    split; [exact HC|]. split; [reflexivity|]. intros old. cbn beta.
    destruct H as (_ & _ & _ & _ & _ & F). rewrite Eb in F. cbn in F.
    rewrite (point_read TPoint id b p _ old C F HC) by apply point_holds. cbn [bind].
    f_equal. now apply with_own.
  Qed.
  Lemma read_point_diffuse id b : body_faithful E b -> load_type (o_load b) = TPointDiffuse -> read_back id b.
  Proof.
    intros H T. unfold read_back, write_object. destruct (o_load b) as [p|p d|p d w h e|p er l|az el d| |n|outs d] eqn:Eb; try discriminate.
    cbn [load_type]. set (t := put_float E ["diffuseness"%string] d (write_point E TPointDiffuse id b p empty_tree)).
    exists t. eexists. split; [reflexivity|].
    pose proof (faithful_common b H) as C. split; [|].
    { jput; [newkey|apply (lib_show E L)|now apply json_point]. }
    assert (HC : holds_common TPointDiffuse id b t) by (subst t; common_of).
    split; [exact HC|]. split; [reflexivity|]. intros old. cbn beta.
    destruct H as (_ & _ & _ & _ & _ & F). rewrite Eb in F. destruct F as [F D].
    assert (HP : holds_point p t). { subst t. split; newkey. }
    unfold parse_point_diffuse. rewrite (point_read TPointDiffuse id b p _ old C F HC HP). cbn [bind].
    rewrite (get_exact "diffuseness" t d D) by (subst t; newkey). cbn [bind try_].
    f_equal. now apply with_own.
  Qed.
  Lemma read_diffuse id b : body_faithful E b -> load_type (o_load b) = TDiffuse -> read_back id b.
  Proof.
    intros H T. unfold read_back, write_object. destruct (o_load b) as [p|p d|p d w h e|p er l|az el d| |n|outs d] eqn:Eb; try discriminate.
    cbn [load_type]. set (t := write_common E TDiffuse id b empty_tree).
    exists t. eexists. split; [reflexivity|].
    pose proof (faithful_common b H) as C. split; [now apply json_common|].
    assert (HC : holds_common TDiffuse id b t) by (subst t; common_of).
    split; [exact HC|]. split; [reflexivity|]. intros old. cbn beta.
    unfold parse_diffuse. rewrite (common_read TDiffuse id b t old C HC). cbn [bind try_].
    f_equal. now apply with_own.
  Qed.
  Lemma read_plane id b : body_faithful E b -> load_type (o_load b) = TPlane -> read_back id b.
  Proof.
    intros H T. unfold read_back, write_object. destruct (o_load b) as [p|p d|p d w h e|p er l|az el d| |n|outs d] eqn:Eb; try discriminate.
    cbn [load_type]. set (t := put_float E ["direction"; "refdist"]%string d (put_float E ["direction"; "el"]%string el
             (put_float E ["direction"; "az"]%string az (write_common E TPlane id b empty_tree)))).
    exists t. eexists. split; [reflexivity|].
    pose proof (faithful_common b H) as C. split; [|].
    { subst t. unfold put_float.
      apply jt_three; try reflexivity; try apply (lib_show E L); [newkey|repeat (constructor; [seven|]); constructor|now apply json_common]. }
    assert (HC : holds_common TPlane id b t) by (subst t; common_of).
    split; [exact HC|]. split; [reflexivity|]. intros old. cbn beta.
    destruct H as (_ & _ & _ & _ & _ & F). rewrite Eb in F. destruct F as (F1 & F2 & F3).
    unfold parse_plane. rewrite (common_read TPlane id b t old C HC). cbn [bind].
    assert (K : kid "direction" (t_kids t) = Some (Node [] [("az"%string, leaf (showf E az)); ("el"%string, leaf (showf E el)); ("refdist"%string, leaf (showf E d))])).
    { subst t. newkey. }
    unfold get_float, opt_float, child_opt. rewrite K. cbn [kid t_kids].
    repeat match goal with |- context [String.eqb ?a ?b] => let r := eval vm_compute in (String.eqb a b) in change (String.eqb a b) with r end.
    cbn beta iota. cbn [leaf t_data]. rewrite F1, F2, F3. cbn [bind try_]. f_equal. now apply with_own.
  Qed.
  Lemma read_hoa id b : body_faithful E b -> load_type (o_load b) = THoa -> read_back id b.
  Proof.
    intros H T. unfold read_back, write_object. destruct (o_load b) as [p|p d|p d w h e|p er l|az el d| |n|outs d] eqn:Eb; try discriminate.
    cbn [load_type]. set (t := put ["order"%string] (print_size n) (write_common E THoa id b empty_tree)).
    exists t. eexists. split; [reflexivity|].
    pose proof (faithful_common b H) as C.
    destruct H as (_ & _ & _ & _ & _ & F). rewrite Eb in F. destruct F as (F1 & F2).
    split; [|].
    { jput; [newkey|apply seven_print; lia|now apply json_common]. }
    assert (HC : holds_common THoa id b t) by (subst t; common_of).
    split; [exact HC|]. split; [reflexivity|]. intros old. cbn beta.
    unfold parse_hoa. rewrite (common_read THoa id b t old C HC). cbn [bind].
    rewrite (unsigned_leaf "order" t n) by (unfold UINT_MAX; try lia; subst t; newkey). cbn [bind o_channels with_load].
    rewrite (Z.mod_small (n + 1)) by (unfold UINT_MAX; lia).
    rewrite Z.mod_small by (unfold UINT_MAX; nia). rewrite F2, Z.eqb_refl. cbn [try_].
    f_equal. now apply with_own.
  Qed.
  Lemma read_channel id b : body_faithful E b -> load_type (o_load b) = TChannel -> read_back id b.
  Proof.
    intros H T. unfold read_back, write_object. destruct (o_load b) as [p|p d|p d w h e|p er l|az el d| |n|outs d] eqn:Eb; try discriminate.
    cbn [load_type]. pose proof (faithful_common b H) as C.
    destruct H as (_ & _ & _ & _ & _ & F). rewrite Eb in F. destruct F as (F1 & F2 & F3 & F4).
    destruct (outputs_read outs F2 F3) as (s & P & R).
    rewrite F1, Nat.eqb_refl. cbn [negb]. rewrite P. cbn [bind].
    set (t0 := write_common E TChannel id b empty_tree).
    set (t1 := if is0 E d then t0 else put_float E ["diffuseness"%string] d t0).
    set (t := put ["outputChannels"%string] s t1).
    exists t. eexists. split; [reflexivity|].
    split; [|].
    { jput; [|now apply (seven_outputs outs)|]; subst t1; destruct (is0 E d); subst t0; [newkey|newkey|now apply json_common|].
      jput; [newkey|apply (lib_show E L)|now apply json_common]. }
    assert (HC : holds_common TChannel id b t) by (subst t t1; destruct (is0 E d); subst t0; common_of).
    split; [exact HC|]. split; [reflexivity|]. intros old. cbn beta.
    unfold parse_channel. rewrite (common_read TChannel id b t old C HC). cbn [bind].
    rewrite (or_optional "diffuseness" t (is0 E) d F4) by (subst t t1; destruct (is0 E d); subst t0; newkey).
    rewrite (text_leaf "outputChannels" t s) by (subst t t1; destruct (is0 E d); subst t0; newkey). cbn [bind].
    rewrite R. cbn [bind o_channels with_load]. rewrite F1, Nat.eqb_refl. cbn [try_]. f_equal. now apply with_own.
  Qed.
  Lemma read_reverb id b : body_faithful E b -> load_type (o_load b) = TReverb -> read_back id b.
  Proof.
    intros H T. unfold read_back, write_object. destruct (o_load b) as [p|p d|p d w h e|p er l|az el d| |n|outs d] eqn:Eb; try discriminate.
    cbn [load_type]. pose proof (faithful_common b H) as C.
    destruct H as (_ & _ & _ & _ & _ & F). rewrite Eb in F. destruct F as (F1 & F2 & F3 & F4 & F5 & F6).
    unfold write_reverb. cbv zeta.
    set (early := match er with [] => empty_tree
                | _ => add_child "ereflect" (fold_left (fun e r => add_child "" (write_reflection E r) e) er empty_tree) empty_tree end).
    set (lt := put ["decayconst"%string] (seq_text E (l_decay l)) (put ["attacktime"%string] (seq_text E (l_attack l))
                  (put ["level"%string] (seq_text E (l_levels l)) (put_float E ["delay"%string] (l_onset l) empty_tree)))).
    set (t0 := write_point E TReverb id b p empty_tree).
    set (t := put_child "room" (put_child "lreverb" lt early) t0).
    assert (N1 : kid "room" (t_kids t0) = None) by (subst t0; newkey).
    assert (N2 : kid "lreverb" (t_kids early) = None) by (subst early; destruct er; reflexivity).
    exists t. eexists. split; [reflexivity|].
    split; [|].
    { apply jt_put_child; [exact N1|seven| |now apply json_point].
      apply jt_json, jt_put_child; [exact N2|seven| |].
      - apply jt_json. subst lt. unfold put_float. do 3 (jput; [newkey|apply seven_seq|]).
        jput; [newkey|apply (lib_show E L)|apply jt_empty].
      - subst early. destruct er; [apply jt_empty|]. apply jt_add_child; [seven| |apply jt_empty].
        apply jt_json. rewrite fold_add. cbn [t_kids t_data empty_tree app].
        apply (json_adds "" (write_reflection E)); [seven|]. apply Forall_forall. intros; apply json_reflection. }
    assert (HC : holds_common TReverb id b t) by (subst t t0; common_of).
    assert (HP : holds_point p t). { subst t t0. split; newkey. }
    split; [exact HC|]. split; [reflexivity|]. intros old. cbn beta.
    unfold parse_reverb. rewrite (point_read TReverb id b p t old C F1 HC HP). cbn [bind].
    assert (R1 : t_count "room" t = 1%nat) by (unfold t_count; subst t; rewrite named_put_child by exact N1; reflexivity).
    rewrite R1. cbn [Nat.eqb negb].
    assert (R2 : kid "room" (t_kids t) = Some (put_child "lreverb" lt early)) by (subst t; newkey).
    unfold child at 1, child_opt. rewrite R2. cbn [bind].
    assert (R3 : t_count "lreverb" (put_child "lreverb" lt early) = 1%nat)
      by (unfold t_count; rewrite named_put_child by exact N2; reflexivity).
    assert (R4 : (if Nat.eqb (t_count "ereflect" (put_child "lreverb" lt early)) 0 then Ok []
                    else er <- child ["ereflect"%string] (put_child "lreverb" lt early) ;;
                         parse_reflections E (kids_named "" er)) = Ok er).
    { unfold t_count. rewrite named_other by (exact N2 || reflexivity). subst early. destruct er as [|r er]; [reflexivity|].
      rewrite fold_add. cbn [t_kids t_data empty_tree app].
      unfold child, child_opt. rewrite kid_put_child, kid_add_child. keys. cbn [kid t_kids empty_tree].
      cbn [bind]. change (Nat.eqb (length (kids_named "ereflect"
        (add_child "ereflect" (Node [] (map (fun x => (""%string, write_reflection E x)) (r :: er))) (Node [] [])))) 0) with false.
      cbn iota. rewrite (named_all "" (write_reflection E) [] (r :: er)). now apply reflections_read. }
    rewrite R4. cbn [bind]. rewrite R3. cbn [Nat.eqb negb].
    unfold child, child_opt. rewrite kid_put_child. keys. cbn [bind].
    rewrite (get_exact "delay" lt _ F3) by (subst lt; newkey). cbn [bind].
    rewrite (nine_read "level" lt _ F4) by (subst lt; newkey). cbn [bind].
    rewrite (nine_read "attacktime" lt _ F5) by (subst lt; newkey). cbn [bind].
    rewrite (nine_read "decayconst" lt _ F6) by (subst lt; newkey). cbn [bind try_].
    f_equal. replace (MkLate (l_onset l) (l_levels l) (l_attack l) (l_decay l)) with l by now destruct l.
    now apply with_own.
  Qed.
  Lemma object_read id b : body_faithful E b -> read_back id b.
  Proof.
    intros H. destruct (load_type (o_load b)) eqn:T.
    - now apply read_point.
    - destruct H as (_ & _ & _ & _ & _ & F). destruct (o_load b); try discriminate. contradiction.
    - now apply read_plane.
    - now apply read_diffuse.
    - now apply read_point_diffuse.
    - destruct (o_load b); discriminate.
    - now apply read_hoa.
    - now apply read_channel.
    - now apply read_reverb.
  Qed.

  (** ** Vectors *)
  Local Notation obj := (obj E).
  Local Notation less := (fun a b : obj => (o_id a < o_id b)%nat).
  Definition own_map (v : list obj) (id : nat) : option (obj_type * body E) :=
    option_map (fun o => (o_type o, o_body o)) (v_find id v).
  Lemma find_own (v : list obj) o : StronglySorted less v -> In o v -> v_find (o_id o) v = Some o.
  Proof.
    intros S. induction S as [|a v S IH F]; intros H; [destruct H|]. unfold v_find. cbn [find].
    destruct H as [->|H]; [now rewrite Nat.ltb_irrefl|].
    rewrite Forall_forall in F. assert (Ha := F o H). cbn beta in Ha.
    assert (Q : negb (o_id o <? o_id a)%nat && negb (o_id a <? o_id o)%nat = false).
    { rewrite (proj2 (Nat.ltb_lt (o_id a) (o_id o)) Ha). cbn. apply andb_false_r. }
    rewrite Q. exact (IH H).
  Qed.
  Lemma find_in (v : list obj) id o : v_find id v = Some o -> In o v /\ o_id o = id.
  Proof.
    intros H. apply find_some in H as [H1 H2]. split; [exact H1|].
    apply andb_prop in H2 as [A B]. apply Bool.negb_true_iff in A, B. apply Nat.ltb_ge in A, B. lia.
  Qed.
  Lemma own_rel (v : list obj) : StronglySorted less v -> orel v (own_map v).
  Proof.
    intros S. split; [exact S|]. intros k x. unfold own_map. split.
    - destruct (v_find k v) as [o|] eqn:Q; [|discriminate]. apply find_in in Q as [Q1 Q2].
      cbn [option_map fst snd]. intros H. injection H as <-. subst k. destruct o as [i ty b]. cbn. auto.
    - intros [H <-]. rewrite (find_own v x S H). now destruct x.
  Qed.
  Lemma puts_find l : forall m id, NoDup (map (@o_id obj_type (body E)) l) ->
    fold_left oput l m id = match v_find id l with Some o => Some (o_type o, o_body o) | None => m id end.
  Proof.
    induction l as [|o l IH]; intros m id N; [reflexivity|]. cbn [fold_left]. inversion N as [|? ? N1 N2]; subst.
    rewrite (IH _ _ N2). unfold v_find. cbn [find].
    fold (v_find id l).
    destruct (negb (id <? o_id o)%nat && negb (o_id o <? id)%nat) eqn:Q.
    - assert (o_id o = id).
      { apply andb_prop in Q as [A B]. apply Bool.negb_true_iff in A, B. apply Nat.ltb_ge in A, B. lia. }
      destruct (v_find id l) as [o'|] eqn:Q'.
      + apply find_in in Q' as [H1 H2]. exfalso. apply N1. rewrite H, <- H2. apply in_map. exact H1.
      + unfold oput, mset. rewrite H, Nat.eqb_refl. reflexivity.
    - destruct (v_find id l); [reflexivity|]. unfold oput, mset. destruct (Nat.eqb_spec id (o_id o)) as [->|]; [|reflexivity].
      rewrite Nat.ltb_irrefl in Q. discriminate.
  Qed.
  Lemma sorted_nodup (l : list obj) : StronglySorted less l -> NoDup (map (@o_id obj_type (body E)) l).
  Proof.
    intros S. induction S as [|a v S IH F]; [constructor|]. cbn. constructor; [|exact IH].
    rewrite Forall_forall in F. intros H. apply in_map_iff in H as (x & Hx & H). specialize (F x H). cbn in F. lia.
  Qed.
  Lemma inserts_in (l v : list obj) : StronglySorted less l -> StronglySorted less v ->
    StronglySorted less (fold_left v_insert l v)
    /\ forall o, In o (fold_left v_insert l v) <-> In o l \/ (In o v /\ ~ In (o_id o) (map (@o_id _ _) l)).
  Proof.
    intros Sl Sv. assert (R := orel_inserts l v _ (own_rel v Sv)). split; [exact (proj1 R)|].
    intros o. assert (Q := proj2 R (o_id o) o). cbn beta in Q. rewrite (puts_find l _ _ (sorted_nodup l Sl)) in Q.
    assert (Q' : In o (fold_left v_insert l v) <->
      option_map (fun p => MkObject (o_id o) (fst p) (snd p)) (match v_find (o_id o) l with Some o0 => Some (o_type o0, o_body o0)
         | None => own_map v (o_id o) end) = Some o) by (rewrite Q; tauto).
    rewrite Q'. clear Q Q' R. destruct (v_find (o_id o) l) as [o0|] eqn:F.
    - apply find_in in F as [F1 F2]. cbn [option_map fst snd].
      assert (Z : MkObject (o_id o) (o_type o0) (o_body o0) = o0) by (rewrite <- F2; now destruct o0).
      rewrite Z. split.
      + intros H. injection H as ->. now left.
      + intros [H|[_ H]].
        * f_equal. assert (A := find_own l o Sl H). assert (B := find_own l o0 Sl F1). rewrite F2 in B. congruence.
        * exfalso. apply H. rewrite <- F2. now apply in_map.
    - assert (N : ~ In (o_id o) (map (@o_id _ _) l)).
      { intros H. apply in_map_iff in H as (x & Hx & H). rewrite <- Hx in F. rewrite (find_own l x Sl H) in F. discriminate. }
      unfold own_map. destruct (v_find (o_id o) v) as [o0|] eqn:G; cbn [option_map fst snd].
      + apply find_in in G as [G1 G2].
        assert (Z : MkObject (o_id o) (o_type o0) (o_body o0) = o0) by (rewrite <- G2; now destruct o0).
        rewrite Z. split.
        * intros H. injection H as ->. right. auto.
        * intros [H|[H _]].
          -- exfalso. apply N. now apply in_map.
          -- f_equal. assert (A := find_own v o Sv H). assert (B := find_own v o0 Sv G1). rewrite G2 in B. congruence.
      + split; [discriminate|]. intros [H|[H _]].
        * exfalso. apply N. now apply in_map.
        * rewrite (find_own v o Sv H) in G. discriminate.
  Qed.
  Lemma inserts_nil (l : list obj) : StronglySorted less l -> fold_left v_insert l [] = l.
  Proof.
    intros S. assert (R := orel_inserts l [] _ orel_empty).
    refine (repr_functional (@o_id obj_type (body E)) lt Nat.lt_irrefl Nat.lt_trans _ _ _ R _).
    refine (repr_ext _ _ _ _ _ _ (own_rel l S)). intros k. f_equal. rewrite (puts_find l _ _ (sorted_nodup l S)).
    unfold own_map. now destruct (v_find k l).
  Qed.

  Lemma create_ok p : exists b, create E (load_type (p : payload E)) = Ok b.
  Proof. destruct p; eexists; reflexivity. Qed.
  Lemma parse_written (v : list obj) (o : obj) : object_faithful E o ->
    exists t, write_object E (o_id o) (o_body o) = Ok t /\ jt t
      /\ forall v, parse_object type_eqb type_of_name (create E) (parse_as E) v (node_of t) = Ok (v_insert v o).
  Proof.
    intros (I & T & F). destruct (object_read (o_id o) _ F) as (t & p & W & J & HC & P & R).
    exists t. split; [exact W|]. split; [exact J|]. intros v0. unfold parse_object, node_of. cbn [n_type n_id n_tree].
    rewrite (text_leaf "type" t (type_name (load_type (o_load (o_body o))))) by (apply HC; cbn; tauto).
    rewrite (unsigned_leaf "id" t (Z.of_nat (o_id o))) by (try lia; apply HC; cbn; tauto). cbn [get bind].
    rewrite name_type. cbn [bind]. rewrite P. cbn [bind]. rewrite Nat2Z.id.
    destruct (create_ok (o_load (o_body o))) as (b0 & B0).
    assert (Q : exists b, match v_find (o_id o) v0 with
         | Some o0 => if type_eqb (o_type o0) (load_type (o_load (o_body o))) then Ok (o_body o0) else create E (load_type (o_load (o_body o)))
         | None => create E (load_type (o_load (o_body o)))
         end = Ok b).
    { destruct (v_find (o_id o) v0); [|eauto]. destruct (type_eqb _ _); eauto. }
    destruct Q as (b & ->). cbn [bind]. rewrite R. cbn [bind]. rewrite <- T. now destruct o.
  Qed.
  Lemma encode_ok (l : list obj) : Forall (object_faithful E) l ->
    exists s, encode E l = Ok s /\ forall v, update E v s = (fold_left v_insert l v, Ok tt).
  Proof.
    intros H.
    assert (W : exists ts, write_objects E l = Ok ts /\ Forall jkid ts
       /\ forall v, update_each type_eqb type_of_name (create E) (parse_as E) v (map (fun p => node_of (snd p)) ts)
                    = (fold_left v_insert l v, Ok tt)).
    { induction H as [|o l Ho _ (ts & W & J & U)]; [exists []; split; [reflexivity|split; [constructor|reflexivity]]|].
      destruct (parse_written [] o Ho) as (t & W1 & J1 & U1).
      exists ((""%string, t) :: ts). cbn [write_objects]. rewrite W1. cbn [bind]. rewrite W. split; [reflexivity|].
      split; [constructor; [split; [constructor|now apply jt_json]|exact J]|].
      intros v. cbn [map update_each snd]. rewrite U1. apply U. }
    destruct W as (ts & W & J & U). unfold encode. rewrite W. cbn [bind]. eexists. split; [reflexivity|].
    intros v. unfold update, message_of. change (put_child "objects" (Node [] ts) empty_tree) with (Node [] [("objects"%string, Node [] ts)]).
    rewrite (lib_json E L).
    - cbn [t_kids kid option_map v_update]. apply U.
    - constructor. constructor; [|constructor]. split; [seven|]. now constructor.
  Qed.
End Round.
