(** C65: object messages. *)
From Coq Require Import String Ascii ZArith Sorted.
From Verif Require Import Base IndexSequenceModel ChannelListModel OrdSet ObjectVectorModel ObjectVectorProps
  MsgModel MsgSpec MsgProofs MsgRound MsgDecode MsgDemo.
Local Open Scope Z_scope.
Local Open Scope res_scope.

Local Notation less := (fun a b => (o_id a < o_id b)%nat).

Lemma fill_update E (v : list (obj E)) s : fill E v s =
  match update E [] s with
  | (new, Ok _) => (new, Ok tt)
  | (_, Throw e) => (v, Throw e)
  | (_, UB) => (v, UB)
  end.
Proof. reflexivity. Qed.

(** A vector of faithful objects is encoded, and the message fills any vector with the same
    objects.  Missing: the objects named in the theorems below, which are not faithful. *)
Theorem C65_round_trip_partial :
  forall (E : floats), libraries E -> forall (l : list (obj E)),
  StronglySorted less l -> Forall (object_faithful E) l ->
  exists s, encode E l = Ok s /\ forall v, fill E v s = (l, Ok tt).
Proof.
  intros E L l S F. destruct (encode_ok E L l F) as (s & W & U). exists s. split; [exact W|].
  intros v. rewrite fill_update, U. exact (f_equal (fun x => (x, Ok tt)) (inserts_nil E l S)).
Qed.
Print Assumptions C65_round_trip_partial.

(** Updating another vector with the message replaces or adds exactly these objects. *)
Theorem C65_update_partial :
  forall (E : floats), libraries E -> forall (l v : list (obj E)),
  StronglySorted less l -> Forall (object_faithful E) l -> StronglySorted less v ->
  exists s v', encode E l = Ok s /\ update E v s = (v', Ok tt) /\ StronglySorted less v'
    /\ forall o, In o v' <-> In o l \/ (In o v /\ ~ exists o', In o' l /\ o_id o' = o_id o).
Proof.
  intros E L l v S F Sv. destruct (encode_ok E L l F) as (s & W & U). exists s, (fold_left v_insert l v).
  split; [exact W|]. split; [apply U|]. destruct (inserts_in E l v S Sv) as [A B]. split; [exact A|].
  intros o. rewrite (B o). split.
  - intros [H|[H1 H2]]; [now left|right]. split; [exact H1|]. intros (o' & Ho & Hi). apply H2. rewrite <- Hi. now apply in_map.
  - intros [H|[H1 H2]]; [now left|right]. split; [exact H1|]. intros H. apply H2. apply in_map_iff in H as (o' & A' & B'). eauto.
Qed.
Print Assumptions C65_update_partial.

(** Which vectors can be encoded. *)
Theorem C65_encode :
  forall (E : floats) (l : list (obj E)),
  (Forall (writable E) l -> exists s, encode E l = Ok s)
  /\ forall l1 o l2 outs d, l = l1 ++ o :: l2 -> Forall (writable E) l1 -> o_load (o_body o) = Channel outs d ->
     (length outs <> length (o_channels (o_body o)) -> encode E l = Throw InvalidArgument)
     /\ (outs = [] -> o_channels (o_body o) = [] -> encode E l = UB).
Proof.
  intros E l.
  assert (W : forall o, writable E o -> exists t, write_object E (o_id o) (o_body o) = Ok t).
  { intros o H. unfold writable in H. unfold write_object. destruct (o_load (o_body o)); try (eexists; reflexivity).
    destruct H as [H1 H2]. rewrite H1, Nat.eqb_refl. cbn [negb]. destruct outputs; [congruence|]. eexists. reflexivity. }
  assert (G : forall l1, Forall (writable E) l1 -> exists ts, forall l2, write_objects E (l1 ++ l2) = bind (write_objects E l2) (fun r => Ok (ts ++ r))).
  { intros l1 H. induction H as [|o l1 Ho _ (ts & IH)].
    - exists []. intros l2. cbn [app]. now destruct (write_objects E l2).
    - destruct (W o Ho) as (t & Ht). exists ((""%string, t) :: ts). intros l2. cbn [app write_objects]. rewrite Ht. cbn [bind].
      rewrite IH. now destruct (write_objects E l2). }
  split.
  - intros H. destruct (G l H) as (ts & Q). specialize (Q []). rewrite app_nil_r in Q. unfold encode. rewrite Q. eexists. reflexivity.
  - intros l1 o l2 outs d -> H Ho. destruct (G l1 H) as (ts & Q). unfold encode. rewrite Q. cbn [write_objects].
    unfold write_object. rewrite Ho. split.
    + intros N. destruct (Nat.eqb_spec (length (o_channels (o_body o))) (length outs)); [congruence|]. reflexivity.
    + intros -> ->. reflexivity.
Qed.
Print Assumptions C65_encode.

(** Positions: exactly the readings of the specification, otherwise an error. *)
Theorem C65_position :
  forall (E : floats) (t : tree),
  (forall p, parse_position E t = Ok p <-> position_of E t p)
  /\ ((forall p, ~ position_of E t p) -> parse_position E t = Throw InvalidArgument).
Proof.
  intros E t.
  assert (V : forall k, opt_float E [k] t = value E k t).
  { intros k. unfold opt_float, child_opt, value. destruct (kid k (t_kids t)) as [[s c]|]; reflexivity. }
  assert (Q : (exists p, parse_position E t = Ok p) \/ parse_position E t = Throw InvalidArgument).
  { unfold parse_position. cbv zeta. destruct (negb _); [now right|]. destruct (_ && _); [now right|].
    destruct (_ || _ || _).
    - destruct (opt_float E ["x"%string] t), (opt_float E ["y"%string] t); eauto.
    - destruct (opt_float E ["az"%string] t), (opt_float E ["el"%string] t); eauto. }
  assert (I : forall p, parse_position E t = Ok p <-> position_of E t p).
  { intros p. unfold parse_position. cbv zeta. rewrite !V. split.
    - destruct (value E "x" t) as [x|] eqn:X, (value E "y" t) as [y|] eqn:Y, (value E "z" t) as [z|] eqn:Zz,
        (value E "az" t) as [az|] eqn:A, (value E "el" t) as [el|] eqn:B, (value E "radius" t) as [r|] eqn:R;
        cbn; intros H; try discriminate H; apply Ok_inj in H; subst p.
      all: try (assert (K := cartesian E t _ _ A B R X Y); rewrite Zz in K; exact K).
      all: assert (K := spherical E t _ _ X Y Zz A B); rewrite R in K; exact K.
    - intros [x y A B R X Y|az el X Y Zz A B].
      + rewrite A, B, R, X, Y. cbn. destruct (value E "z" t); reflexivity.
      + rewrite A, B, X, Y, Zz. cbn. destruct (value E "radius" t); reflexivity. }
  split; [exact I|]. intros N. destruct Q as [(p & H)|H]; [|exact H]. destruct (N p). now apply I.
Qed.
Print Assumptions C65_position.

(** Whatever the message, the objects of a vector stay consistent, also if an error ends
    the update half way. *)
Theorem C65_consistent :
  forall (E : floats) (v : list (obj E)) (s : text),
  Forall (object_consistent E) v ->
  Forall (object_consistent E) (fst (update E v s)) /\ Forall (object_consistent E) (fst (fill E v s)).
Proof. intros E v s H. split; [now apply update_consistent|now apply fill_consistent]. Qed.
Print Assumptions C65_consistent.

(** The content of a decoded object depends on the message only, but for the channels, which
    are kept if those of the message cannot be read. *)
Theorem C65_forgets :
  forall (E : floats) ty p t (a b : body E),
  parse_as E ty = Ok p ->
  o_channels a = o_channels b \/ (exists s l, get_text ["channels"%string] t = Ok s /\ index_sequence s = Ok l) ->
  p t a = p t b.
Proof.
  intros E ty p t a b P H. apply (parse_forgets E ty p t a b P). destruct H as [H|(s & l & H1 & H2)]; [now left|right].
  exists l. rewrite H1. exact H2.
Qed.
Print Assumptions C65_forgets.

(** The errors of decoding. *)
Theorem C65_errors :
  forall (E : floats) (v : list (obj E)) (s : text),
  let r := snd (update E v s) in
  (of_json E s = None -> update E v s = (v, Throw InvalidArgument))
  /\ forall t, of_json E s = Some t ->
     (r = Throw RuntimeError <-> kid "objects" (t_kids t) = None)
     /\ (kid "objects" (t_kids t) = None -> fst (update E v s) = v)
     /\ (forall e, r = Throw e -> e = InvalidArgument \/ e = RuntimeError
                                 \/ e = CharPointer /\ sequence_fails E t (fun A => Throw CharPointer))
     /\ (r = UB -> sequence_fails E t (fun A => UB)).
Proof.
  intros E v s. cbv zeta. unfold update, message_of. split.
  - intros ->. reflexivity.
  - intros t ->. destruct (kid "objects" (t_kids t)) as [c|] eqn:K; cbn [option_map v_update].
    + destruct (kid_in _ _ _ K) as (k & Hk).
      assert (T := tame_each E c (t_kids c) (fun k t H => ex_intro _ k H) v). cbv zeta in T. destruct T as [T1 T2].
      set (r := snd _) in *.
      assert (T3 : tame E t r) by (eapply tame_kid; eauto). clearbody r. clear T1.
      split; [|split; [discriminate|split]].
      * split; [|discriminate]. intros H. destruct (T2 _ H); discriminate.
      * intros e H. destruct (T2 e H) as [-> | ->]; [now left|]. right. right. split; [reflexivity|]. rewrite H in T3. exact T3.
      * intros H. rewrite H in T3. exact T3.
    + cbn [snd fst]. split; [split; auto|]. split; [reflexivity|]. split; [|discriminate].
      intros e H. injection H as <-. auto.
Qed.
Print Assumptions C65_errors.

(** ** What is lost *)
(** The writer of extended sources leaves out the diffuseness, which their parser demands:
    every such source is written and then rejected. *)
Theorem C65_extent_refuted :
  forall (E : floats), libraries E -> forall id b p d w h e,
  o_load b = Extent p d w h e -> body_faithful E (with_load b (Point p)) -> Z.of_nat id <= UINT_MAX ->
  exists s, encode E [MkObject id TExtent b] = Ok s
    /\ forall v, update E v s = (v, Throw InvalidArgument) /\ fill E v s = (v, Throw InvalidArgument).
Proof.
  intros E L id b p d w h e Hb F I.
  assert (C : common_ok E b) by exact (faithful_common E _ F).
  assert (P : point_faithful E p) by apply F.
  set (t := put_float E ["depth"%string] e (put_float E ["height"%string] h (put_float E ["width"%string] w
             (write_point E TExtent id b p empty_tree)))).
  assert (W : write_object E id b = Ok t) by (unfold write_object; rewrite Hb; reflexivity).
  assert (HC : holds_common E TExtent id b t).
  { intros k Hk. cbn [In] in Hk. subst t.
    repeat (destruct Hk as [<-|Hk]; [unfold put_float; keys; rewrite ?kid_point; reflexivity|]). contradiction. }
  assert (HP : holds_point E p t). { subst t. unfold put_float. split; keys; rewrite kid_point; reflexivity. }
  assert (J : jt t).
  { subst t. unfold put_float. repeat (apply jt_put; [keys; rewrite ?kid_point; reflexivity|cbv; repeat constructor; lia|apply (lib_show E L)|]).
    now apply json_point. }
  exists (to_json E (Node [] [("objects"%string, Node [] [(""%string, t)])])).
  split; [unfold encode; cbn [write_objects o_id o_body]; rewrite W; reflexivity|].
  assert (U : forall v, update E v (to_json E (Node [] [("objects"%string, Node [] [(""%string, t)])])) = (v, Throw InvalidArgument)).
  { intros v. unfold update, message_of. rewrite (lib_json E L).
    2:{ constructor. constructor; [|constructor]. split; [cbv; repeat constructor; lia|]. constructor. constructor; [|constructor].
        split; [constructor|now apply jt_json]. }
    cbn [t_kids kid option_map v_update map snd]. change (String.eqb "objects" "objects") with true. cbn iota. cbn [map snd update_each].
    assert (Q : forall b0, parse_extent E t b0 = Throw InvalidArgument).
    { intros b0. unfold parse_extent, parse_point_diffuse. rewrite (point_read E TExtent id b p t b0 C P HC HP). cbn [bind].
      unfold get_float at 1. rewrite (opt_none E "diffuseness" t) by (subst t; unfold put_float; keys; rewrite kid_point; reflexivity).
      reflexivity. }
    assert (R : parse_object type_eqb type_of_name (create E) (parse_as E) v (node_of t) = Throw InvalidArgument).
    { unfold parse_object, node_of. cbn [n_type n_id n_tree].
      rewrite (text_leaf "type" t (type_name TExtent)) by (apply HC; cbn; tauto).
      rewrite (unsigned_leaf "id" t (Z.of_nat id)) by (try lia; apply HC; cbn; tauto). cbn [get bind].
      rewrite name_type. cbn [bind parse_as].
      destruct (v_find _ v) as [o|]; [|cbn [create bind]; rewrite Q; reflexivity].
      destruct (type_eqb (o_type o) TExtent); cbn [create bind]; rewrite Q; reflexivity. }
    cbn [option_map t_kids map snd update_each]. now rewrite R. }
  intros v. split; [apply U|]. now rewrite fill_update, U.
Qed.
Print Assumptions C65_extent_refuted.

(** ** Cases, with a concrete instance of the libraries *)
Local Notation "# z" := (Some z%Z : num demo) (at level 9, z at level 9).
Definition ex_body (p : payload demo) (ch : list Z) : body demo := MkBody 1 #5 7 ch [] p.
Definition ex_point (lock : num demo) : point demo := MkPoint #1 #2 #(-3) lock.
Definition ex_obj (id : nat) (p : payload demo) (ch : list Z) : obj demo := MkObject id (load_type p) (ex_body p ch).
Definition ex_eq (gain : num demo) : eqc demo := MkEq Peak #1000 #3 gain.
Definition ex_nine (z : Z) : list (num demo) := [#z; #1; #2; #3; #4; #5; #6; #7; #(-8)].
Definition ex_late (z : Z) : late demo := MkLate #9 (ex_nine z) (ex_nine 0) (ex_nine 1).
Definition ex_biquad (z : Z) : biquad demo := MkBiquad #z #1 #2 #3 #4.
Definition ex_reverb (z : Z) : payload demo :=
  Reverb (ex_point #4) [MkReflection #1 #2 #3 #4 #5 (map ex_biquad [0; 1; 2; 3; 4; 5; 6; 7; 8; 9])] (ex_late z).
Definition ex_channel : payload demo := Channel [[txt "L"; txt "M+000"]; []; [txt "R"]] #3.
Definition ex_vector : list (obj demo) :=
  [ MkObject 1 TPoint (MkBody 4294967295 #(-5) 255 [3; 0] [ex_eq #4; ex_eq #0] (Point (ex_point #6)));
    ex_obj 2 (Hoa 1) [0; 1; 2; 3];
    ex_obj 4 ex_channel [7; 8; 9];
    ex_obj 5 (ex_reverb 12) [0];
    ex_obj 6 (Plane #1 #2 #3) [2];
    ex_obj 7 (PointDiffuse (ex_point #0) #8) [];
    ex_obj 9 Diffuse [5] ].

Lemma label_ex t : t <> [] -> forallb label_char t = true -> label t.
Proof.
  intros H F. split; [exact H|]. apply Forall_forall. intros c Hc. apply letter_cases.
  rewrite forallb_forall in F. now apply F.
Qed.
Lemma nine_ex l : length l = 9%nat -> fseq demo (join (txt ", ") (map (show6 demo) l)) = Ok l -> exact_nine demo l.
Proof. intros. now split. Qed.
Example C65_round_trip_example :
  StronglySorted less ex_vector /\ Forall (object_faithful demo) ex_vector.
Proof.
  split; [repeat constructor|].
  assert (X : forall z, exact demo (Some z)) by exact demo_exact.
  assert (P : forall lock : Z, point_faithful demo (ex_point (Some lock))).
  { intros lock. repeat split; try apply X. unfold optional_exact. cbn. destruct (Z.eqb_spec lock 0); [now subst|apply X]. }
  assert (B : forall p ch, Forall (fun c => 0 <= c <= INT_MAX) ch -> load_faithful demo (length ch) p ->
                           body_faithful demo (ex_body p ch)).
  { intros p ch Hc Hp. split; [cbv; split; discriminate|]. split; [cbv; split; discriminate|]. split; [apply X|].
    split; [exact Hc|]. split; [constructor|exact Hp]. }
  assert (N : forall l : list Z, Forall (fun c => 0 <= c <= 100) l -> Forall (fun c => 0 <= c <= INT_MAX) l).
  { intros l. apply Forall_impl. unfold INT_MAX. lia. }
  assert (O : forall id p ch, (id < 100)%nat -> Forall (fun c => 0 <= c <= 100) ch -> load_faithful demo (length ch) p ->
                              object_faithful demo (ex_obj id p ch)).
  { intros id p ch Hi Hc Hp. split; [unfold UINT_MAX; cbn [ex_obj o_id]; lia|]. split; [reflexivity|]. apply B; [now apply N|exact Hp]. }
  unfold ex_vector. constructor.
  { split; [discriminate|]. split; [reflexivity|]. split; [cbv; split; discriminate|]. split; [cbv; split; discriminate|].
    split; [apply X|]. split; [apply N; repeat constructor; lia|]. split; [|apply P].
    repeat (constructor; [repeat split; apply X|]). constructor. }
  constructor; [apply O; [lia|repeat constructor; lia|split; [lia|reflexivity]]|].
  constructor; [apply O; [lia|repeat constructor; lia|]|].
  { split; [reflexivity|]. split; [discriminate|]. split; [|apply X].
    repeat (constructor; [repeat (constructor; [apply label_ex; [discriminate|reflexivity]|]); constructor|]). constructor. }
  constructor; [apply O; [lia|repeat constructor; lia|]|].
  { split; [apply P|]. split.
    - constructor; [|constructor]. do 5 (split; [apply X|]). split; [reflexivity|].
      repeat (constructor; [repeat split; apply X|]). constructor.
    - split; [apply X|]. split; [|split]; apply nine_ex; reflexivity. }
  constructor; [apply O; [lia|repeat constructor; lia|repeat split; apply X]|].
  constructor; [apply O; [lia|constructor|split; [apply P|apply X]]|].
  constructor; [apply O; [lia|repeat constructor; lia|exact I]|]. constructor.
Qed.
(** The same by computation, over a vector which has other objects. *)
Example C65_update_example :
  update demo [ex_obj 2 Diffuse []; ex_obj 3 Diffuse [1]] (the [] (encode demo [ex_obj 2 (Hoa 1) [0; 1; 2; 3]; ex_obj 4 ex_channel [7; 8; 9]]))
  = ([ex_obj 2 (Hoa 1) [0; 1; 2; 3]; ex_obj 3 Diffuse [1]; ex_obj 4 ex_channel [7; 8; 9]], Ok tt).
Proof. reflexivity. Qed.
Example C65_encode_example :
  let empty := ex_obj 1 (Channel [] #0) [] in
  let short := ex_obj 1 ex_channel [7] in
  let good := ex_obj 0 ex_channel [7; 8; 9] in
  Forall (writable demo) [good] /\ encode demo [good; short; empty] = Throw InvalidArgument /\ encode demo [good; empty; short] = UB.
Proof. split; [repeat constructor; discriminate|split; reflexivity]. Qed.
Example C65_position_example :
  let t l := Node [] (map (fun p : string * string => (fst p, Node (txt (snd p)) [])) l) in
  parse_position demo (t [("x", "5"); ("y", "-6"); ("z", "?")]%string) = Ok (Some 5, Some (-6), Some 0)
  /\ parse_position demo (t [("az", "5"); ("el", "-6"); ("x", "?")]%string) = Ok (Some 5, Some (-6), Some 16777216)
  /\ parse_position demo (t [("x", "5"); ("y", "-6"); ("radius", "1")]%string) = Throw InvalidArgument
  /\ parse_position demo (t [("x", "5"); ("z", "-6")]%string) = Throw InvalidArgument.
Proof. repeat split. Qed.

(** A message made of given trees. *)
Definition ex_message (l : list tree) : text := to_json demo (Node [] [("objects"%string, Node [] (map (fun t => (""%string, t)) l))]).
Definition ex_tree (o : obj demo) : tree := the empty_tree (write_object demo (o_id o) (o_body o)).
Example C65_consistent_example : Forall (object_consistent demo) ex_vector.
Proof.
  assert (W : forall p ch, load_consistent demo (length ch) p -> forall id, object_consistent demo (ex_obj id p ch)).
  { intros p ch H id. split; [reflexivity|]. split; [cbv; split; discriminate|]. split; [cbv; split; discriminate|]. exact H. }
  unfold ex_vector. constructor; [split; [reflexivity|split; [cbv; split; discriminate|split; [cbv; split; discriminate|exact I]]]|].
  constructor; [apply W; split; [cbv; split; discriminate|exists 0; reflexivity]|].
  constructor; [apply W; split; [reflexivity|]|].
  { repeat (constructor; [repeat (constructor; [apply label_ex; [discriminate|reflexivity]|]); constructor|]). constructor. }
  constructor; [apply W; repeat constructor|].
  repeat (constructor; [apply W; exact I|]). constructor.
Qed.
(** The channels of an object are kept if those of the message cannot be read. *)
Example C65_forgets_example :
  let t := put ["channels"%string] (txt "?") (ex_tree (ex_obj 2 Diffuse [])) in
  update demo [ex_obj 2 Diffuse [1; 2]] (ex_message [t]) = ([ex_obj 2 Diffuse [1; 2]], Ok tt)
  /\ update demo [ex_obj 2 (Hoa 0) [1]] (ex_message [t]) = ([ex_obj 2 Diffuse []], Ok tt).
Proof. split; reflexivity. Qed.
(** Errors: a message without objects, an unreadable one, and a sequence of indices with
    increment zero, whose exception is not derived from std::exception and passes the
    parsers; objects before the faulty one are kept by update() but not by fill(). *)
Example C65_errors_example :
  let good := ex_obj 2 Diffuse [1] in
  let bad := put ["channels"%string] (txt "1:0:5") (ex_tree (ex_obj 3 Diffuse [])) in
  let late := put ["priority"%string] (txt "256") (ex_tree (ex_obj 3 Diffuse [])) in
  update demo [good] (to_json demo empty_tree) = ([good], Throw RuntimeError)
  /\ update demo [good] (txt "?") = ([good], Throw InvalidArgument)
  /\ update demo [] (ex_message [ex_tree good; bad]) = ([good], Throw CharPointer)
  /\ fill demo [] (ex_message [ex_tree good; bad]) = ([], Throw CharPointer)
  /\ update demo [] (ex_message [ex_tree good; late]) = ([good], Throw InvalidArgument)
  /\ fill demo [] (ex_message [ex_tree good; late]) = ([], Throw InvalidArgument).
Proof. repeat split; reflexivity. Qed.
Example C65_extent_example :
  body_faithful demo (with_load (ex_body (Extent (ex_point #0) #1 #2 #3 #4) [2]) (Point (ex_point #0))).
Proof.
  split; [cbv; split; discriminate|]. split; [cbv; split; discriminate|]. split; [apply demo_exact|].
  split; [repeat constructor; discriminate|]. split; [constructor|]. repeat split; apply demo_exact.
Qed.

Lemma ex_both (l : list (obj demo)) r : is_ok (encode demo l) = true -> fill demo [] (the [] (encode demo l)) = r ->
  exists s, encode demo l = Ok s /\ fill demo [] s = r.
Proof. intros H <-. destruct (encode demo l) as [s| |]; try discriminate. now exists s. Qed.
(** The round trip does not hold for all objects: a source without assigned channel (index
    UINT_MAX) loses the channel; an infinite channel lock becomes none; a gain below the
    machine epsilon becomes zero; spaces within labels are lost; numbers of the late
    reverberation keep six digits. *)
Theorem C65_round_trip_refuted :
  exists E, libraries E /\ exists (o1 o2 o3 o4 o5 o1' o2' o3' o4' o5' : obj E),
    o_channels (o_body o1) = [UINT_MAX] /\ o1 <> o1' /\ o2 <> o2' /\ o3 <> o3' /\ o4 <> o4' /\ o5 <> o5'
    /\ (exists s, encode E [o1] = Ok s /\ fill E [] s = ([o1'], Ok tt)) /\ o_channels (o_body o1') = []
    /\ (exists s, encode E [o2] = Ok s /\ fill E [] s = ([o2'], Ok tt))
    /\ (exists s, encode E [o3] = Ok s /\ fill E [] s = ([o3'], Ok tt))
    /\ (exists s, encode E [o4] = Ok s /\ fill E [] s = ([o4'], Ok tt))
    /\ (exists s, encode E [o5] = Ok s /\ fill E [] s = ([o5'], Ok tt)).
Proof.
  exists demo. split; [exact demo_libraries|].
  exists (ex_obj 1 (Point (ex_point #0)) [UINT_MAX]), (ex_obj 1 (Point (ex_point None)) [0]),
    (MkObject 1 TDiffuse (MkBody 1 #5 7 [] [ex_eq #1] Diffuse)),
    (ex_obj 1 (Channel [[txt "L R"]] #0) [3]), (ex_obj 1 (ex_reverb 1234567) [0]),
    (ex_obj 1 (Point (ex_point #0)) []), (ex_obj 1 (Point (ex_point #0)) [0]),
    (MkObject 1 TDiffuse (MkBody 1 #5 7 [] [ex_eq #0] Diffuse)),
    (ex_obj 1 (Channel [[txt "LR"]] #0) [3]), (ex_obj 1 (ex_reverb 1234500) [0]).
  split; [reflexivity|]. do 5 (split; [discriminate|]).
  split; [apply ex_both; reflexivity|]. split; [reflexivity|].
  repeat (split; [apply ex_both; reflexivity|]). apply ex_both; reflexivity.
Qed.
Print Assumptions C65_round_trip_refuted.

(** Decoding accepts an ambisonic source of order 2^32 - 1 without channels, and a channel
    object without channels, which then cannot be encoded. *)
Theorem C65_decoded_refuted :
  exists E, libraries E /\ (exists s o, fill E [] s = ([o], Ok tt) /\ o_load (o_body o) = Hoa UINT_MAX /\ o_channels (o_body o) = [])
    /\ exists s v, fill E [] s = (v, Ok tt) /\ encode E v = UB.
Proof.
  exists demo. split; [exact demo_libraries|]. split.
  - exists (ex_message [ex_tree (ex_obj 1 (Hoa UINT_MAX) [])]), (ex_obj 1 (Hoa UINT_MAX) []).
    split; [reflexivity|]. split; reflexivity.
  - exists (ex_message [put ["outputChannels"%string] [] (put ["type"%string] (type_name TChannel) (ex_tree (ex_obj 1 Diffuse [])))]),
      [ex_obj 1 (Channel [] #0) []].
    split; [reflexivity|]. reflexivity.
Qed.
Print Assumptions C65_decoded_refuted.

(** The type "extended" is named but not registered. *)
Theorem C65_extended :
  forall (E : floats) t, get_text ["type"%string] t = Ok (txt "extended") -> (exists id, get_unsigned ["id"%string] t = Ok id) ->
  forall v, parse_object type_eqb type_of_name (create E) (parse_as E) v (node_of t) = Throw InvalidArgument.
Proof.
  intros E t H (id & Hi) v. unfold parse_object, node_of. cbn [n_type n_id n_tree]. rewrite H, Hi. reflexivity.
Qed.
Print Assumptions C65_extended.

(** Every type but the unregistered "extended" has a constructor, which makes an object of
    that type, and a parser; creation and parsing of the other one are refused. *)
Theorem C65_registered :
  forall (E : floats) ty,
  (ty <> TExtended -> exists b f, create E ty = Ok b /\ load_type (o_load b) = ty /\ parse_as E ty = Ok f)
  /\ (ty = TExtended -> create E ty = Throw InvalidArgument /\ parse_as E ty = Throw InvalidArgument).
Proof.
  intros E ty. split; [|intros ->; split; reflexivity].
  intros H. destruct ty; try contradiction; cbn [create bind parse_as]; do 2 eexists; repeat split.
Qed.
Print Assumptions C65_registered.
