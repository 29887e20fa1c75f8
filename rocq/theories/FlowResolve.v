(** Placeholder resolution: lemmas. *)
From Verif Require Import Base FlowModel FlowProofs.
From Coq Require Import Permutation.
Local Open Scope res_scope.

Section Chains.
  Context {A : Type}.
  Variable ph : A -> bool.   (* placeholder *)

  (** connections [m] lead from [s] to [d] through placeholders only *)
  Inductive chain (m : list (A * A)) : A -> A -> Prop :=
  | chain_one s d : In (s, d) m -> chain m s d
  | chain_step s p d : In (s, p) m -> ph p = true -> chain m p d -> chain m s d.

  Lemma chain_app m s p d : chain m s p -> ph p = true -> chain m p d -> chain m s d.
  Proof.
    intros H Hp. induction H as [s p H|s q p H Hq _ IH]; intros D.
    - eapply chain_step; eassumption.
    - eapply chain_step; [exact H|exact Hq|]. now apply IH.
  Qed.
  Lemma chain_last m s d : chain m s d <-> In (s, d) m \/ exists p, chain m s p /\ ph p = true /\ In (p, d) m.
  Proof.
    split.
    - induction 1 as [s d H|s p d H Hp _ IH]; [now left|]. right. destruct IH as [Hd|(q & Hq & Pq & Hd)].
      + exists p. split; [now apply chain_one|]. auto.
      + exists q. split; [|auto]. eapply chain_step; eassumption.
    - intros [H|(p & H & Hp & Hd)]; [now apply chain_one|]. eapply chain_app; [exact H|exact Hp|now apply chain_one].
  Qed.

  Section Driver.
    Variable m : list (A * A).
    Hypothesis driver : forall s s' d, ph d = true -> In (s, d) m -> In (s', d) m -> s = s'.

    (** [s] feeds [x]: it is [x] or leads to it *)
    Definition feeds (s x : A) : Prop := s = x \/ (ph x = true /\ chain m s x).
    Lemma feeds_step s x y : ph x = true -> In (y, x) m -> feeds s y -> feeds s x.
    Proof.
      intros Px Hy [->|[Py H]]; right; (split; [exact Px|]); [now apply chain_one|].
      eapply chain_app; [exact H|exact Py|now apply chain_one].
    Qed.
    Lemma feeds_back s x y : ph x = true -> In (y, x) m -> feeds s x -> s = x \/ feeds s y.
    Proof using driver.
      intros Px Hy [->|[_ H]]; [now left|]. right. apply chain_last in H as [H|(p & H & Pp & Hp)].
      - left. now apply (driver s y x).
      - rewrite <- (driver p y x Px Hp Hy). now right.
    Qed.

    Lemma closed_chain trace s y : (forall y, In y trace -> ph y = true /\ forall z, In (z, y) m -> In z trace) ->
      chain m s y -> In y trace -> In s trace.
    Proof.
      intros C. induction 1 as [s d H|s p d H Hp _ IH]; intros Hy.
      - now apply (C d).
      - apply (C p); [now apply IH|exact H].
    Qed.

    Lemma feeds_chain s q d : In (q, d) m -> feeds s q -> chain m s d.
    Proof.
      intros H [->|[Pq Hs]]; [now apply chain_one|]. eapply chain_app; [exact Hs|exact Pq|now apply chain_one].
    Qed.

    (** the same chains, extended at the receiving end *)
    Inductive rchain : A -> A -> Prop :=
    | rchain_one s d : In (s, d) m -> rchain s d
    | rchain_step s p d : rchain s p -> ph p = true -> In (p, d) m -> rchain s d.
    Lemma chain_rchain s d : chain m s d <-> rchain s d.
    Proof.
      split.
      - induction 1 as [s d H|s p d H Hp _ IH]; [now apply rchain_one|].
        clear - H Hp IH. induction IH as [p d Hd|p q d Hq IH Pq Hd].
        + apply rchain_step with p; [now apply rchain_one|exact Hp|exact Hd].
        + apply rchain_step with q; [now apply IH|exact Pq|exact Hd].
      - induction 1 as [s d H|s p d _ IH Hp H]; [now apply chain_one|].
        eapply chain_app; [exact IH|exact Hp|now apply chain_one].
    Qed.
    Lemma source_unique s s' d : ph d = true -> ph s = false -> ph s' = false -> chain m s d -> chain m s' d -> s = s'.
    Proof using driver.
      intros Pd Ps Ps' H H'. rewrite chain_rchain in H, H'. revert s' Ps' H' Pd.
      induction H as [s d H|s p d _ IH Hp H]; intros s' Ps' H' Pd; inversion H' as [? ? K|? q ? Hq Pq K]; subst.
      - now apply (driver s s' d).
      - rewrite (driver _ _ _ Pd H K) in Ps. congruence.
      - rewrite (driver _ _ _ Pd H K) in Hp. congruence.
      - assert (p = q) by now apply (driver p q d). subst q. now apply IH.
    Qed.

  End Driver.
End Chains.

Section Audio.
  Variable o : objects.
  Notation ph := (placeholder_channel o).

  Section Map.
    Variable m : list (channel * channel).
    Hypothesis driver : forall s s' d, ph d = true -> In (s, d) m -> In (s', d) m -> s = s'.

    Lemma find_some x e : findReceiveChannel m x = Some e -> In e m /\ snd e = x.
    Proof.
      intros H. apply find_some in H as [H E]. split; [exact H|]. now destruct (channel_eqb_spec (snd e) x).
    Qed.
    Lemma find_none x : findReceiveChannel m x = None -> forall s, ~ In (s, x) m.
    Proof.
      intros H s Hi. apply (List.find_none _ _ H) in Hi. cbn [snd] in Hi. rewrite channel_eqb_refl in Hi. discriminate.
    Qed.

    Definition tracing (trace : list channel) (x : channel) : Prop :=
      forall y, In y trace -> ph y = true /\ chain ph m x y /\ forall z, In (z, y) m -> In z (x :: trace).

    Lemma trace_spec : forall fuel trace entry,
      In entry m -> NoDup trace -> tracing trace (fst entry) -> incl trace (map fst m) ->
      ~ In (fst entry) trace -> length m < fuel + length trace ->
      match trace_sender o fuel m trace entry with
      | Ok s => ph s = false /\ feeds ph m s (fst entry)
      | Throw LogicError =>
          (exists q, ph q = true /\ feeds ph m q (fst entry) /\ (forall z, ~ In (z, q) m)) /\ forall s, feeds ph m s (fst entry) -> ph s = true
      | Throw InvalidArgument =>
          (exists q, feeds ph m q (fst entry) /\ chain ph m q q) /\ forall s, feeds ph m s (fst entry) -> ph s = true
      | _ => False
      end.
    Proof using driver.
      induction fuel as [|fuel IH]; intros trace [x d] Hm ND Cl Inc Ni F; cbn [fst snd] in *.
      - exfalso. assert (length (x :: trace) <= length (map fst m)).
        { apply NoDup_incl_length; [now constructor|]. intros y [<-|Hy]; [|now apply Inc].
          apply in_map_iff. now exists (x, d). }
        rewrite map_length in H. cbn [length] in H. lia.
      - cbn [trace_sender fst snd]. destruct (ph x) eqn:Px; cbn [negb].
        2:{ split; [exact Px|now left]. }
        destruct (findReceiveChannel m x) as [[y x']|] eqn:Ef.
        2:{ pose proof (find_none _ Ef) as Hn. split.
            - exists x. split; [exact Px|]. split; [now left|exact Hn].
            - intros s [->|[_ H]]; [exact Px|]. apply chain_last in H as [H|(p & _ & _ & H)]; now apply Hn in H. }
        apply find_some in Ef as [Hy Ex]. cbn [fst snd] in *. subst x'.
        assert (Cl' : tracing (x :: trace) y).
        { intros z [<-|Hz].
          - split; [exact Px|]. split; [now apply chain_one|]. intros w Hw. left. now apply (driver y w x Px).
          - destruct (Cl z Hz) as (P1 & P2 & P3). split; [exact P1|]. split.
            + eapply chain_step; [exact Hy|exact Px|exact P2].
            + intros w Hw. right. now apply P3. }
        destruct (existsb (channel_eqb y) (x :: trace)) eqn:Ex.
        + assert (Hyt : In y (x :: trace)).
          { apply existsb_exists in Ex as (z & Hz & E). destruct (channel_eqb_spec y z); [now subst|discriminate]. }
          split.
          * exists x. split; [now left|]. destruct Hyt as [->|Hyt]; [now apply chain_one|].
            destruct (Cl y Hyt) as (P1 & P2 & _). eapply chain_app; [exact P2|exact P1|now apply chain_one].
          * intros s [->|[_ Hs]]; [exact Px|].
            assert (Hi : In s (x :: trace)).
            { eapply (closed_chain ph m); [|exact Hs|now left]. intros z Hz. destruct (Cl' z Hz) as (P1 & _ & P3).
              split; [exact P1|]. intros w Hw. destruct (P3 w Hw) as [<-|H]; [exact Hyt|exact H]. }
            now apply (Cl' s).
        + assert (Nyt : ~ In y (x :: trace)).
          { intros H. assert (existsb (channel_eqb y) (x :: trace) = true); [|congruence].
            apply existsb_exists. exists y. split; [exact H|apply channel_eqb_refl]. }
          specialize (IH (x :: trace) (y, x)). cbn [fst snd] in IH.
          specialize (IH Hy ltac:(now constructor) Cl').
          assert (I2 : incl (x :: trace) (map fst m)).
          { intros z [<-|Hz]; [|now apply Inc]. apply in_map_iff. now exists (x, d). }
          specialize (IH I2 Nyt). cbn [length] in IH. specialize (IH ltac:(lia)).
          destruct (trace_sender o fuel m (x :: trace) (y, x)) as [s|[]|]; try contradiction.
          * destruct IH as [P1 P2]. split; [exact P1|]. now apply feeds_step with y.
          * destruct IH as [(q & Q1 & Q2) P]. split.
            -- exists q. split; [now apply feeds_step with y|exact Q2].
            -- intros s Hs. apply (feeds_back ph m driver s x y Px Hy) in Hs as [->|Hs]; [exact Px|now apply P].
          * destruct IH as [(q & Q1 & Q2 & Q3) P]. split.
            -- exists q. split; [exact Q1|]. split; [|exact Q3]. now apply feeds_step with y.
            -- intros s Hs. apply (feeds_back ph m driver s x y Px Hy) in Hs as [->|Hs]; [exact Px|now apply P].
    Qed.

    (** sources of a receive channel *)
    Definition source (s d : channel) : Prop := ph s = false /\ chain ph m s d.
    Definition undriven (d : channel) : Prop := exists q, ph q = true /\ chain ph m q d /\ forall z, ~ In (z, q) m.
    Definition looped (d : channel) : Prop := exists q, chain ph m q d /\ chain ph m q q /\ ph q = true.

    (** outcome for one connection *)
    Definition sender_of (raw : channel * channel) : res channel :=
      if negb (ph (fst raw)) then Ok (fst raw)
      else match findReceiveChannel m (fst raw) with
           | None => Throw InvalidArgument
           | Some entry => trace_sender o (S (S (length m))) m [fst raw] entry
           end.

    Lemma sender_of_spec q d : In (q, d) m ->
      match sender_of (q, d) with
      | Ok s => ph s = false /\ feeds ph m s q
      | Throw e =>
          ph q = true /\ (forall s, feeds ph m s q -> ph s = true)
          /\ ((e = InvalidArgument /\ (forall z, ~ In (z, q) m))
              \/ (e = InvalidArgument /\ exists p, feeds ph m p q /\ ph p = true /\ chain ph m p p)
              \/ (e = LogicError /\ exists p, feeds ph m p q /\ ph p = true /\ forall z, ~ In (z, p) m))
      | UB => False
      end.
    Proof using driver.
      intros H. unfold sender_of. cbn [fst]. destruct (ph q) eqn:Pq; cbn [negb].
      2:{ split; [exact Pq|now left]. }
      destruct (findReceiveChannel m q) as [[x q']|] eqn:Ef.
      2:{ pose proof (find_none _ Ef) as Hn. split; [reflexivity|]. split; [|now left].
          intros s [->|[_ K]]; [exact Pq|]. apply chain_last in K as [K|(p & _ & _ & K)]; now apply Hn in K. }
      pose proof (find_some _ _ Ef) as [Hx Eq]. cbn [fst snd] in *. subst q'.
      destruct (channel_dec x q) as [->|Ne].
      - (* a connection from the channel to itself *)
        cbn [trace_sender fst snd]. rewrite Pq. cbn [negb]. rewrite Ef. cbn [fst existsb]. rewrite channel_eqb_refl. cbn [orb].
        split; [reflexivity|]. split.
        + intros s [->|[_ K]]; [exact Pq|].
          assert (In s [q]) as [<-|[]]; [|exact Pq]. eapply (closed_chain ph m); [|exact K|now left].
          intros y [<-|[]]. split; [exact Pq|]. intros z Hz. left. now apply (driver q z q).
        + right. left. split; [reflexivity|]. exists q. split; [now left|]. split; [exact Pq|now apply chain_one].
      - pose proof (trace_spec (S (S (length m))) [q] (x, q) Hx) as T. cbn [fst snd length] in T.
        specialize (T ltac:(repeat constructor; intros [])).
        assert (T1 : tracing [q] x).
        { intros y [<-|[]]. split; [exact Pq|]. split; [now apply chain_one|]. intros z Hz. left. now apply (driver x z q). }
        specialize (T T1). clear T1.
        assert (T2 : incl [q] (map fst m)) by (intros y [<-|[]]; apply in_map_iff; now exists (q, d)).
        specialize (T T2 ltac:(intros [E|[]]; congruence) ltac:(lia)).
        destruct (trace_sender o (S (S (length m))) m [q] (x, q)) as [s|[]|]; try contradiction.
        + destruct T as [A B]. split; [exact A|]. now apply feeds_step with x.
        + destruct T as [(p & A & C) B]. split; [reflexivity|]. split.
          * intros s Hs. apply (feeds_back ph m driver s q x Pq Hx) in Hs as [->|Hs]; [exact Pq|now apply B].
          * right. left. split; [reflexivity|]. exists p. split; [now apply feeds_step with x|]. split; [now apply B|exact C].
        + destruct T as [(p & A & C & D) B]. split; [reflexivity|]. split.
          * intros s Hs. apply (feeds_back ph m driver s q x Pq Hx) in Hs as [->|Hs]; [exact Pq|now apply B].
          * right. right. split; [reflexivity|]. exists p. split; [now apply feeds_step with x|]. split; [exact A|exact D].
    Qed.

    Lemma resolve_one_sender r raw :
      resolve_one o m r raw
      = if ph (snd raw) then Ok r else s <- sender_of raw ;; Ok (amap_insert (s, snd raw) r).
    Proof.
      unfold resolve_one, sender_of. destruct (ph (snd raw)); [reflexivity|]. destruct raw as [q d]. cbn [fst snd].
      destruct (ph q); cbn [negb]; [|reflexivity]. now destruct (findReceiveChannel m q).
    Qed.

    Lemma resolve_fold : forall l r,
      match fold_left (fun r raw => resolved <- r ;; resolve_one o m resolved raw) l (Ok r) with
      | Ok r' => exists ss, Forall2 (fun raw s => sender_of raw = Ok s) (filter (fun raw => negb (ph (snd raw))) l) ss
                 /\ Permutation r' (combine ss (map snd (filter (fun raw => negb (ph (snd raw))) l)) ++ r)
      | Throw e => exists raw, In raw l /\ ph (snd raw) = false /\ sender_of raw = Throw e
      | UB => exists raw, In raw l /\ ph (snd raw) = false /\ sender_of raw = UB
      end.
    Proof.
      assert (T : forall l e, fold_left (fun r raw => resolved <- r ;; resolve_one o m resolved raw) l (Throw e) = Throw e)
        by (induction l; cbn; auto).
      assert (U : forall l, fold_left (fun r raw => resolved <- r ;; resolve_one o m resolved raw) l UB = UB)
        by (induction l; cbn; auto).
      induction l as [|raw l IH]; intros r; cbn [fold_left].
      - exists []. split; [constructor|reflexivity].
      - cbn [bind]. rewrite resolve_one_sender. cbn [filter]. destruct (ph (snd raw)) eqn:Pd; cbn [negb].
        + specialize (IH r). destruct (fold_left _ l (Ok r)) as [r'|e|].
          * exact IH.
          * destruct IH as (x & Hx & R). exists x. split; [now right|exact R].
          * destruct IH as (x & Hx & R). exists x. split; [now right|exact R].
        + destruct (sender_of raw) as [s|e|] eqn:Es; cbn [bind].
          * specialize (IH (amap_insert (s, snd raw) r)).
            destruct (fold_left _ l (Ok (amap_insert (s, snd raw) r))) as [r'|e|].
            -- destruct IH as (ss & F & P). exists (s :: ss). split; [now constructor|]. cbn [map combine app].
               rewrite P, amap_insert_perm. symmetry. apply Permutation_middle.
            -- destruct IH as (x & Hx & R). exists x. split; [now right|exact R].
            -- destruct IH as (x & Hx & R). exists x. split; [now right|exact R].
          * rewrite T. exists raw. split; [now left|]. auto.
          * rewrite U. exists raw. split; [now left|]. auto.
    Qed.

    Lemma Forall2_in_l {A B} (R : A -> B -> Prop) l l' x : Forall2 R l l' -> In x l -> exists y, In (y, x) (combine l' l) /\ R x y.
    Proof.
      induction 1 as [|a b l l' H F IH]; intros K; [contradiction|]. destruct K as [<-|K].
      - exists b. split; [now left|exact H].
      - destruct (IH K) as (y & Hy & Ry). exists y. split; [now right|exact Ry].
    Qed.
    Lemma Forall2_in_r {A B} (R : A -> B -> Prop) l l' x y : Forall2 R l l' -> In (y, x) (combine l' l) -> In x l /\ R x y.
    Proof.
      induction 1 as [|a b l l' H F IH]; intros K; [contradiction|]. destruct K as [[= <- <-]|K].
      - split; [now left|exact H].
      - destruct (IH K). split; [now right|assumption].
    Qed.
    Lemma combine_map_r {A B C} (f : B -> C) : forall (l : list A) (l' : list B),
      combine l (map f l') = map (fun p => (fst p, f (snd p))) (combine l l').
    Proof. induction l as [|a l IH]; intros [|b l']; cbn; [reflexivity..|]. now rewrite IH. Qed.

    Lemma resolve_spec :
      match resolvePlaceholders o m with
      | Ok r => (forall s d, In (s, d) r <-> ph s = false /\ ph d = false /\ chain ph m s d)
                /\ Permutation (map snd r) (filter (fun d => negb (ph d)) (map snd m))
      | Throw e => exists q d, In (q, d) m /\ ph d = false /\ sender_of (q, d) = Throw e
      | UB => False
      end.
    Proof using driver.
      pose proof (resolve_fold m []) as R. 
      change (fold_left (fun r raw => resolved <- r ;; resolve_one o m resolved raw) m (Ok [])) with (resolvePlaceholders o m) in R.
      destruct (resolvePlaceholders o m) as [r|e|].
      - destruct R as (ss & F & P). rewrite app_nil_r in P. split.
        + intros s d. rewrite P, combine_map_r, in_map_iff. split.
          * intros ((s' & [q d']) & [= <- <-] & H). apply (Forall2_in_r _ _ _ _ _ F) in H as [Hi Hs].
            apply filter_In in Hi as [Hi Pd]. cbn [snd] in Pd. apply negb_true_iff in Pd.
            pose proof (sender_of_spec q d' Hi) as S. rewrite Hs in S. destruct S as [S1 S2].
            split; [exact S1|]. split; [exact Pd|]. now apply feeds_chain with q.
          * intros (Ps & Pd & H). apply chain_last in H as [H|(q & H & Pq & Hd)].
            -- assert (Hi : In (s, d) (filter (fun raw => negb (ph (snd raw))) m)).
               { apply filter_In. cbn [snd]. rewrite Pd. auto. }
               destruct (Forall2_in_l _ _ _ _ F Hi) as (y & Hy & Ey). unfold sender_of in Ey. cbn [fst] in Ey. rewrite Ps in Ey.
               cbn [negb] in Ey. inversion Ey; subst y. exists (s, (s, d)). auto.
            -- assert (Hi : In (q, d) (filter (fun raw => negb (ph (snd raw))) m)).
               { apply filter_In. cbn [snd]. rewrite Pd. auto. }
               destruct (Forall2_in_l _ _ _ _ F Hi) as (y & Hy & Ey).
               pose proof (sender_of_spec q d Hd) as S. rewrite Ey in S. destruct S as [S1 [->|[_ S2]]]; [congruence|].
               assert (y = s) by now apply (source_unique ph m driver y s q). subst y. exists (s, (q, d)). auto.
        + rewrite P. clear P. assert (L : forall l l', Forall2 (fun raw s => sender_of raw = Ok s) l l' ->
                     map snd (combine l' (map snd l)) = map snd l).
          { induction 1 as [|? ? ? ? _ _ IH]; cbn; [reflexivity|]. now rewrite IH. }
          rewrite (L _ _ F). clear. induction m as [|[q d] l IH]; [reflexivity|]. cbn [filter map snd].
          destruct (ph d); cbn [negb filter map snd]; [exact IH|]. now rewrite IH.
      - destruct R as ([q d] & H & Pd & E). now exists q, d.
      - destruct R as ([q d] & H & Pd & E). pose proof (sender_of_spec q d H) as S. now rewrite E in S.
    Qed.
  End Map.
End Audio.

Section Params.
  Variable o : objects.
  Notation ph := (placeholder_param o).
  (** the map holds (receiver, sender) *)
  Definition plinks (m : pmap) : list (nat * nat) := map (fun e => (snd e, fst e)) m.
  Lemma plinks_in m s d : In (s, d) (plinks m) <-> In (d, s) m.
  Proof.
    unfold plinks. rewrite in_map_iff. split.
    - intros ((d', s') & [= <- <-] & H). exact H.
    - intros H. exists (d, s). auto.
  Qed.

  Section Map.
    Variable m : pmap.
    Hypothesis driver : forall s s' d, ph d = true -> In (s, d) (plinks m) -> In (s', d) (plinks m) -> s = s'.

    Lemma pfind_some x e : pfind m x = Some e -> In (snd e, x) (plinks m).
    Proof.
      unfold pfind. intros H. apply List.find_some in H as [H E]. apply Nat.eqb_eq in E. apply (plinks_in m). rewrite <- E.
      now destruct e.
    Qed.
    Lemma pfind_none x : pfind m x = None -> forall s, ~ In (s, x) (plinks m).
    Proof.
      intros H s Hi. apply (plinks_in m) in Hi. apply (List.find_none _ _ H) in Hi. cbn [fst] in Hi. rewrite Nat.eqb_refl in Hi. discriminate.
    Qed.

    Notation fd := (feeds ph (plinks m)).
    Definition dead (x : nat) : Prop := forall s, fd s x -> ph s = true.
    Definition ptracing (trace : list nat) (x : nat) : Prop :=
      forall y, In y trace -> ph y = true /\ forall z, In (z, y) (plinks m) -> In z (x :: trace).

    Lemma loop_dead trace x : ph x = true -> ptracing trace x -> In x trace -> dead x.
    Proof.
      intros Px T Hx s [->|[_ H]]; [exact Px|].
      assert (In s trace); [|now apply (T s)]. eapply closed_chain; [|exact H|exact Hx].
      intros y Hy. destruct (T y Hy) as [P1 P2]. split; [exact P1|]. intros z Hz.
      destruct (P2 z Hz) as [<-|K]; [exact Hx|exact K].
    Qed.

    Lemma ptrace_spec d : ph d = false -> In d (map fst m) -> forall fuel trace x,
      ph x = true -> ptracing trace x -> incl trace (map fst m) -> (NoDup (x :: trace) \/ dead x) ->
      length m + 2 <= fuel + S (length trace) -> (trace = [] \/ S (length trace) < length m) ->
      match ptrace o fuel m (length m) (S (length trace)) (pfind m x) with
      | Ok s => ph s = false /\ fd s x
      | Throw _ => dead x
      | UB => False
      end.
    Proof using driver.
      intros Pd Hd. induction fuel as [|fuel IH]; intros trace x Px T Inc ND F C.
      - exfalso. destruct C as [->|C]; cbn in *; lia.
      - cbn [ptrace]. destruct (pfind m x) as [[x' y]|] eqn:Ef.
        2:{ pose proof (pfind_none _ Ef) as Hn.
            intros s [->|[_ H]]; [exact Px|]. apply chain_last in H as [H|(p & _ & _ & H)]; now apply Hn in H. }
        pose proof (pfind_some _ _ Ef) as Hy. cbn [snd] in *.
        assert (Kx : In x (map fst m)) by (apply in_map_iff; exists (x, y); split; [reflexivity|now apply (plinks_in m)]).
        destruct (ph y) eqn:Py; cbn [negb].
        2:{ split; [exact Py|]. eapply feeds_step; [exact Px|exact Hy|now left]. }
        assert (T' : ptracing (x :: trace) y).
        { intros z [<-|Hz].
          - split; [exact Px|]. intros w Hw. left. now apply (driver y w x).
          - destruct (T z Hz) as [P1 P2]. split; [exact P1|]. intros w Hw. right. now apply P2. }
        assert (ND' : NoDup (y :: x :: trace) \/ dead y).
        { destruct (in_dec Nat.eq_dec y (x :: trace)) as [Hi|Hi]; [right; now apply loop_dead with (x :: trace)|].
          destruct ND as [ND|D]; [left; now constructor|]. right. intros s Hs. apply D.
          eapply feeds_step; [exact Px|exact Hy|exact Hs]. }
        assert (Dx : dead y -> dead x).
        { intros D s Hs. apply (feeds_back ph _ driver s x y Px Hy) in Hs as [->|Hs]; [exact Px|now apply D]. }
        destruct (Nat.leb_spec (length m) (S (S (length trace)))) as [L|L].
        + apply Dx. destruct ND' as [ND'|D]; [|exact D]. intros s Hs. destruct (ph s) eqn:Ps; [reflexivity|]. exfalso.
          destruct Hs as [->|[_ Hs]]; [congruence|].
          assert (Ky : In y (map fst m)).
          { apply chain_last in Hs as [Hs|(p & _ & _ & Hs)]; apply (plinks_in m) in Hs; apply in_map_iff;
              eexists; (split; [|exact Hs]); reflexivity. }
          assert (NoDup (d :: y :: x :: trace)).
          { constructor; [|exact ND']. intros [E|[E|Hi]]; [congruence..|]. apply T in Hi as [Hi _]. congruence. }
          assert (L2 : length (d :: y :: x :: trace) <= length (map fst m)).
          { apply NoDup_incl_length; [assumption|]. intros z [<-|[<-|[<-|Hz]]]; auto. }
          rewrite map_length in L2. cbn [length] in L2. lia.
        + specialize (IH (x :: trace) y Py T'). cbn [length] in IH.
          specialize (IH ltac:(intros z [<-|Hz]; auto) ND' ltac:(lia) ltac:(right; lia)).
          destruct (ptrace o fuel m (length m) (S (S (length trace))) (pfind m y)); [|now apply Dx|contradiction].
          destruct IH as [A B]. split; [exact A|]. eapply feeds_step; [exact Px|exact Hy|exact B].
    Qed.

    Definition psender (raw : nat * nat) : res nat :=
      if negb (ph (snd raw)) then Ok (snd raw) else ptrace o (S (length m)) m (length m) 1 (pfind m (snd raw)).
    Lemma psender_spec d q : ph d = false -> In (d, q) m ->
      match psender (d, q) with
      | Ok s => ph s = false /\ fd s q
      | Throw _ => dead q
      | UB => False
      end.
    Proof using driver.
      intros Pd H. unfold psender. cbn [snd]. destruct (ph q) eqn:Pq; cbn [negb].
      2:{ split; [exact Pq|now left]. }
      apply (ptrace_spec d Pd) with (trace := []).
      - apply in_map_iff. now exists (d, q).
      - exact Pq.
      - intros y [].
      - intros y [].
      - left. repeat constructor. intros [].
      - cbn [length]. lia.
      - now left.
    Qed.

    Lemma presolve_one_sender r raw :
      presolve_one o m r raw = if ph (fst raw) then Ok r else s <- psender raw ;; Ok (pmap_insert (fst raw, s) r).
    Proof.
      unfold presolve_one, psender. destruct (ph (fst raw)); [reflexivity|]. destruct raw as [d q]. cbn [fst snd].
      now destruct (ph q).
    Qed.
    Lemma presolve_fold : forall l r,
      match fold_left (fun r raw => flat <- r ;; presolve_one o m flat raw) l (Ok r) with
      | Ok r' => exists ss, Forall2 (fun raw s => psender raw = Ok s) (filter (fun raw => negb (ph (fst raw))) l) ss
                 /\ Permutation r' (combine (map fst (filter (fun raw => negb (ph (fst raw))) l)) ss ++ r)
      | Throw e => exists raw, In raw l /\ ph (fst raw) = false /\ psender raw = Throw e
      | UB => exists raw, In raw l /\ ph (fst raw) = false /\ psender raw = UB
      end.
    Proof.
      assert (T : forall l e, fold_left (fun r raw => flat <- r ;; presolve_one o m flat raw) l (Throw e) = Throw e)
        by (induction l; cbn; auto).
      assert (U : forall l, fold_left (fun r raw => flat <- r ;; presolve_one o m flat raw) l UB = UB)
        by (induction l; cbn; auto).
      induction l as [|raw l IH]; intros r; cbn [fold_left].
      - exists []. split; [constructor|reflexivity].
      - cbn [bind]. rewrite presolve_one_sender. cbn [filter]. destruct (ph (fst raw)) eqn:Pd; cbn [negb].
        + specialize (IH r). destruct (fold_left _ l (Ok r)) as [r'|e|].
          * exact IH.
          * destruct IH as (x & Hx & R). exists x. split; [now right|exact R].
          * destruct IH as (x & Hx & R). exists x. split; [now right|exact R].
        + destruct (psender raw) as [s|e|] eqn:Es; cbn [bind].
          * specialize (IH (pmap_insert (fst raw, s) r)).
            destruct (fold_left _ l (Ok (pmap_insert (fst raw, s) r))) as [r'|e|].
            -- destruct IH as (ss & F & P). exists (s :: ss). split; [now constructor|]. cbn [map combine app].
               rewrite P, pmap_insert_perm. symmetry. apply Permutation_middle.
            -- destruct IH as (x & Hx & R). exists x. split; [now right|exact R].
            -- destruct IH as (x & Hx & R). exists x. split; [now right|exact R].
          * rewrite T. exists raw. split; [now left|]. auto.
          * rewrite U. exists raw. split; [now left|]. auto.
    Qed.

    Lemma combine_map_l {A B C} (f : A -> C) : forall (l : list A) (l' : list B),
      combine (map f l) l' = map (fun p => (f (fst p), snd p)) (combine l l').
    Proof. induction l as [|a l IH]; intros [|b l']; cbn; [reflexivity..|]. now rewrite IH. Qed.
    Lemma Forall2_combine_l {A B} (R : A -> B -> Prop) l l' x : Forall2 R l l' -> In x l -> exists y, In (x, y) (combine l l') /\ R x y.
    Proof.
      induction 1 as [|a b l l' H F IH]; intros K; [contradiction|]. destruct K as [<-|K].
      - exists b. split; [now left|exact H].
      - destruct (IH K) as (y & Hy & Ry). exists y. split; [now right|exact Ry].
    Qed.
    Lemma Forall2_combine_r {A B} (R : A -> B -> Prop) l l' x y : Forall2 R l l' -> In (x, y) (combine l l') -> In x l /\ R x y.
    Proof.
      induction 1 as [|a b l l' H F IH]; intros K; [contradiction|]. destruct K as [[= <- <-]|K].
      - split; [now left|exact H].
      - destruct (IH K). split; [now right|assumption].
    Qed.

    Lemma presolve_spec :
      match presolve o m with
      | Ok r => (forall s d, In (d, s) r <-> ph s = false /\ ph d = false /\ chain ph (plinks m) s d)
                /\ Permutation (map fst r) (filter (fun d => negb (ph d)) (map fst m))
      | Throw e => exists d q, In (d, q) m /\ ph d = false /\ ph q = true /\ forall s, fd s q -> ph s = true
      | UB => False
      end.
    Proof using driver.
      pose proof (presolve_fold m []) as R.
      change (fold_left (fun r raw => flat <- r ;; presolve_one o m flat raw) m (Ok [])) with (presolve o m) in R.
      destruct (presolve o m) as [r|e|].
      - destruct R as (ss & F & P). rewrite app_nil_r in P. split.
        + intros s d. rewrite P, combine_map_l, in_map_iff. split.
          * intros (((d', q) & s') & [= <- <-] & H). apply (Forall2_combine_r _ _ _ _ _ F) in H as [Hi Hs].
            apply filter_In in Hi as [Hi Pd]. cbn [fst] in Pd. apply negb_true_iff in Pd.
            pose proof (psender_spec d' q Pd Hi) as S. rewrite Hs in S. destruct S as [S1 S2].
            split; [exact S1|]. split; [exact Pd|]. apply (feeds_chain ph (plinks m) s' q d'); [now apply (plinks_in m)|exact S2].
          * intros (Ps & Pd & H). apply chain_last in H as [H|(q & H & Pq & Hd)].
            -- apply (plinks_in m) in H. assert (Hi : In (d, s) (filter (fun raw => negb (ph (fst raw))) m)).
               { apply filter_In. cbn [fst]. rewrite Pd. auto. }
               destruct (Forall2_combine_l _ _ _ _ F Hi) as (y & Hy & Ey). unfold psender in Ey. cbn [snd] in Ey. rewrite Ps in Ey.
               cbn [negb] in Ey. inversion Ey; subst y. exists ((d, s), s). auto.
            -- apply (plinks_in m) in Hd. assert (Hi : In (d, q) (filter (fun raw => negb (ph (fst raw))) m)).
               { apply filter_In. cbn [fst]. rewrite Pd. auto. }
               destruct (Forall2_combine_l _ _ _ _ F Hi) as (y & Hy & Ey).
               pose proof (psender_spec d q Pd Hd) as S. rewrite Ey in S. destruct S as [S1 [->|[_ S2]]]; [congruence|].
               assert (y = s) by now apply (source_unique ph (plinks m) driver y s q). subst y. exists ((d, q), s). auto.
        + rewrite P. clear P. assert (L : forall l l', Forall2 (fun raw s => psender raw = Ok s) l l' ->
                     map fst (combine (map fst l) l') = map fst l).
          { induction 1 as [|? ? ? ? _ _ IH]; cbn; [reflexivity|]. now rewrite IH. }
          rewrite (L _ _ F). clear. induction m as [|[q d] l IH]; [reflexivity|]. cbn [filter map fst].
          destruct (ph q); cbn [negb filter map fst]; [exact IH|]. now rewrite IH.
      - destruct R as ([d q] & H & Pd & E). exists d, q. pose proof (psender_spec d q Pd H) as S. cbn [fst] in Pd.
        unfold psender in E, S. cbn [snd] in E, S. rewrite E in S. destruct (ph q) eqn:Pq; cbn [negb] in E; [|discriminate].
        split; [exact H|]. auto.
      - destruct R as ([d q] & H & Pd & E). pose proof (psender_spec d q Pd H) as S. now rewrite E in S.
    Qed.
  End Map.

  (** the connection list of a hierarchy *)
  Fixpoint all_plinks (c : comp) : list (nat * nat) :=
    match c with
    | Atomic _ _ _ => []
    | Composite _ _ _ children _ pconns => pconns ++ flat_map all_plinks children
    end.
  Definition pconn_ok (sends receives : list nat) (c : nat * nat) : Prop :=
    In (fst c) sends /\ In (snd c) receives /\ compatible o (fst c) (snd c) = true.
  Definition rev_pairs (l : list (nat * nat)) : list (nat * nat) := map (fun c => (snd c, fst c)) l.

  Lemma pfill_fold sends receives : forall pconns st,
    let r := fold_left (pfill_one o sends receives) pconns st in
    (fst r = true <-> fst st = true /\ Forall (pconn_ok sends receives) pconns)
    /\ (fst r = true -> Permutation (snd r) (rev_pairs pconns ++ snd st)).
  Proof.
    induction pconns as [|[s r] l IH]; intros [b m]; cbn [fold_left]; cbv zeta.
    - split; [|reflexivity]. cbn. split; [auto|tauto].
    - destruct (IH (pfill_one o sends receives (b, m) (s, r))) as [IH1 IH2]. cbv zeta in IH1, IH2. split.
      + rewrite IH1, Forall_cons_iff. unfold pfill_one, pconn_ok. cbn [fst snd].
        destruct (mem s sends) eqn:E1; cbn [negb fst].
        2:{ apply mem_false in E1. split; [intros [? _]; discriminate|tauto]. }
        apply mem_spec in E1. destruct (mem r receives) eqn:E2; cbn [negb fst].
        2:{ apply mem_false in E2. split; [intros [? _]; discriminate|tauto]. }
        apply mem_spec in E2. rewrite andb_true_iff. tauto.
      + intros H. rewrite (IH2 H). apply IH1 in H as [H _]. revert H. unfold pfill_one.
        destruct (mem s sends); cbn [negb fst]; [|discriminate].
        destruct (mem r receives); cbn [negb fst snd]; [|discriminate].
        intros _. rewrite pmap_insert_perm. cbn [rev_pairs map app fst snd]. symmetry. apply Permutation_middle.
  Qed.
  Lemma pfill_recursive_ok c : forall m,
    let r := pfill_recursive o c m in
    (fst r = true <-> forall i a p children conns pconns, inside (Composite i a p children conns pconns) c ->
        Forall (pconn_ok (send_params o p children) (receive_params o p children)) pconns)
    /\ (fst r = true -> Permutation (snd r) (rev_pairs (all_plinks c) ++ m)).
  Proof.
    induction c as [c a p|c a p children conns pconns IH] using comp_induction; intros m; cbv zeta.
    - cbn. split; [|reflexivity]. split; [|reflexivity]. intros _ i a' p' ch cs ps H. inversion H.
    - cbn [pfill_recursive all_plinks].
      destruct (pfill_fold (send_params o p children) (receive_params o p children) pconns (true, m)) as [F1 F2].
      cbv zeta in F1, F2.
      set (st := fold_left (pfill_one o (send_params o p children) (receive_params o p children)) pconns (true, m)) in *.
      clearbody st. cbn [fst snd] in F1, F2.
      set (OK := fun c => forall i a p children conns pconns, inside (Composite i a p children conns pconns) c ->
        Forall (pconn_ok (send_params o p children) (receive_params o p children)) pconns).
      assert (G : forall l st, Forall (fun c => forall m, let r := pfill_recursive o c m in
                    (fst r = true <-> OK c) /\ (fst r = true -> Permutation (snd r) (rev_pairs (all_plinks c) ++ m))) l ->
                  let r := fold_left (fun (st : bool * pmap) child => if fst st then pfill_recursive o child (snd st) else st) l st in
                  (fst r = true <-> fst st = true /\ forall x, In x l -> OK x)
                  /\ (fst r = true -> Permutation (snd r) (rev_pairs (flat_map all_plinks l) ++ snd st))).
      { clear. induction l as [|x l IHl]; intros st HF; cbn [fold_left flat_map In]; cbv zeta.
        - split; [|reflexivity]. split; [intros ->; split; [reflexivity|intros x []]|tauto].
        - inversion HF as [|? ? Hx Hl]; subst. unfold rev_pairs in *. rewrite map_app. destruct (fst st) eqn:Es.
          + specialize (Hx (snd st)). cbv zeta in Hx. destruct Hx as [X1 X2].
            destruct (IHl (pfill_recursive o x (snd st)) Hl) as [I1 I2]. cbv zeta in I1, I2. split.
            * rewrite I1, X1. split.
              -- intros [A B]. split; [reflexivity|]. intros y [<-|Hy]; auto.
              -- intros [_ B]. split; auto.
            * intros H. rewrite (I2 H). apply I1 in H as [H _]. rewrite (X2 H), <- app_assoc.
              rewrite !app_assoc. apply Permutation_app_tail, Permutation_app_comm.
          + destruct (IHl st Hl) as [I1 I2]. cbv zeta in I1, I2. split.
            * rewrite I1, Es. split; [intros [? _]; discriminate|intros [? _]; discriminate].
            * intros H. apply I1 in H as [H _]. congruence. }
      destruct (G children st IH) as [G1 G2]. cbv zeta in G1, G2. split.
      + rewrite G1, F1. split.
        * intros [[_ A] B] i a' p' ch cs ps H. apply inside_composite in H as [E|(x & Hx & H)]; [inversion E; subst; exact A|].
          apply (B x Hx i a' p' ch cs ps H).
        * intros H. split; [split; [reflexivity|]|].
          -- eapply H. constructor.
          -- intros x Hx i a' p' ch cs ps Hi. eapply H. apply inside_composite. right. exists x. split; [exact Hx|exact Hi].
      + intros H. rewrite (G2 H). apply G1 in H as [H _]. rewrite (F2 H). unfold rev_pairs. rewrite map_app.
        rewrite !app_assoc. apply Permutation_app_tail, Permutation_app_comm.
  Qed.
  Lemma all_plinks_inside c e :
    In e (all_plinks c) <-> exists i a p children conns pconns,
      inside (Composite i a p children conns pconns) c /\ In e pconns.
  Proof.
    induction c as [c a p|c a p children conns pconns IH] using comp_induction; cbn [all_plinks].
    - split; [contradiction|]. intros (i & a' & p' & ch & cs & ps & H & _). inversion H.
    - rewrite in_app_iff, (in_flat_map all_plinks). rewrite Forall_forall in IH. split.
      + intros [H|(x & Hx & H)].
        * exists c, a, p, children, conns, pconns. split; [constructor|exact H].
        * apply (IH x Hx) in H as (i & a' & p' & ch & cs & ps & Hi & H).
          exists i, a', p', ch, cs, ps. split; [econstructor; [exact Hx|exact Hi]|exact H].
      + intros (i & a' & p' & ch & cs & ps & Hi & H). apply inside_composite in Hi as [E|(x & Hx & Hi)]; [inversion E; subst; now left|].
        right. exists x. split; [assumption|]. apply (IH x Hx). now exists i, a', p', ch, cs, ps.
  Qed.
End Params.
