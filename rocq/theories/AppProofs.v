From Coq Require Import List Arith NArith Bool Lia Ring Field.
From Verif Require Import FieldDef ModDef FFTModel RegModel ArithModel GadgetModel GadgetSpec GadgetProofs PcdModel PcdProofs2 AppModel AppSpec.
Import ListNotations.
Local Open Scope nat_scope.

Lemma suffix_eqb_eq a b : suffix_eqb a b = true <-> a = b.
Proof. destruct a, b; cbn; rewrite ?N.eqb_eq; split; congruence. Qed.

Lemma repeat_snoc {T : Type} (x : T) n : repeat x n ++ [x] = x :: repeat x n.
Proof. induction n; cbn; congruence. Qed.

Section Pad.
  Variable F : Field.
  Lemma write_all_ok (W : Type) hs (data : list (elem F W)) : forall buf c,
    write_all F W hs data (buf, c) = if (length data =? 0) then Some (buf, c) else if c + length data <? hs then Some (buf ++ data, c + length data) else None.
  Proof.
    induction data as [|v r IH]; intros buf c; cbn [write_all length]; [reflexivity|].
    cbn [Nat.eqb]. unfold counting_write. destruct hs as [|lim]; cbn [obind]; [reflexivity|]. cbn [snd fst].
    destruct (Nat.leb_spec lim c); cbn [obind].
    - destruct (Nat.ltb_spec (c + S (length r)) (S lim)); [lia|reflexivity].
    - rewrite IH. destruct r as [|w r'].
      + cbn [length Nat.eqb]. destruct (Nat.ltb_spec (c + 1) (S lim)); [|lia]. do 2 f_equal. lia.
      + set (r := w :: r') in *. assert (length r =? 0 = false) as -> by reflexivity.
        replace (S c + length r) with (c + S (length r)) by lia. destruct (c + S (length r) <? S lim); [|reflexivity].
        rewrite <- app_assoc. reflexivity.
  Qed.
  Lemma pad_loop_w hs fuel : forall buf c, 0 < hs -> hs - 1 - c <= fuel -> forall r,
    holds (pad_loop F F f1 false hs fuel (buf, c)) r <-> r = (buf ++ map wir (repeat f0 (hs - 1 - c)), Nat.max c (hs - 1)).
  Proof.
    induction fuel as [|fuel IH]; intros buf c Hh Hf r; cbn [pad_loop].
    - replace (hs - 1 - c) with 0 by lia. cbn [repeat map]. rewrite app_nil_r. replace (Nat.max c (hs - 1)) with c by lia. apply ret_w.
    - cbn [snd fst]. destruct (Nat.ltb_spec c (hs - 1)) as [H|H].
      + rewrite (holds_det F _ _ _ _ (e_zero_w F)). unfold counting_write. destruct hs as [|lim]; [lia|]. cbn [snd fst].
        destruct (Nat.leb_spec lim c); [lia|]. rewrite IH by lia. replace (S lim - 1 - c) with (S (S lim - 1 - S c)) by lia.
        cbn [repeat map]. rewrite <- app_assoc. cbn [app]. replace (Nat.max (S c) (S lim - 1)) with (Nat.max c (S lim - 1)) by lia. reflexivity.
      + replace (hs - 1 - c) with 0 by lia. cbn [repeat map]. rewrite app_nil_r. replace (Nat.max c (hs - 1)) with c by lia. apply ret_w.
  Qed.
  Lemma pad_loop_s hs fuel : forall buf c st, 0 < hs -> hs - 1 - c <= fuel ->
    simulate (pad_loop F F f1 true hs fuel (buf, c)) st = Some ((buf ++ map hon (repeat f0 (hs - 1 - c)), Nat.max c (hs - 1)), st).
  Proof.
    induction fuel as [|fuel IH]; intros buf c st Hh Hf; cbn [pad_loop].
    - replace (hs - 1 - c) with 0 by lia. cbn [repeat map simulate]. rewrite app_nil_r. replace (Nat.max c (hs - 1)) with c by lia. reflexivity.
    - cbn [snd fst]. destruct (Nat.ltb_spec c (hs - 1)) as [H|H].
      + rewrite sim_bind, e_zero_s. unfold counting_write. destruct hs as [|lim]; [lia|]. cbn [snd fst].
        destruct (Nat.leb_spec lim c); [lia|]. rewrite IH by lia. replace (S lim - 1 - c) with (S (S lim - 1 - S c)) by lia.
        cbn [repeat map]. rewrite <- app_assoc. cbn [app]. replace (Nat.max (S c) (S lim - 1)) with (Nat.max c (S lim - 1)) by lia. reflexivity.
      + replace (hs - 1 - c) with 0 by lia. cbn [repeat map simulate]. rewrite app_nil_r. replace (Nat.max c (hs - 1)) with c by lia. reflexivity.
  Qed.
  Lemma padded_w hs v (data : list F) (buf : list (elem F F)) r :
    holds (padded_write F F f1 false hs (Some v) (map wir data) buf) r <-> length data < hs /\ r = buf ++ map wir (padded hs v data).
  Proof.
    unfold padded_write, padded_content_write. rewrite (holds_det F _ _ _ _ (e_constant_w F v)). destruct hs as [|lim]; [rewrite holds_bind; split; [intros (? & [] & _)|lia]|].
    rewrite write_all_ok, map_length. cbn [Nat.add].
    destruct (Nat.ltb_spec (length data) (S lim)) as [H|H].
    - assert (E : (if length data =? 0 then Some (buf, 0) else Some (buf ++ map wir data, length data)) = Some (buf ++ map wir data, length data)).
      { destruct data; cbn [length Nat.eqb map]; [rewrite app_nil_r|]; reflexivity. }
      rewrite E. rewrite holds_bind. unfold padded. rewrite !map_app. split.
      + intros (b & H1 & H2). apply holds_bind in H1. destruct H1 as (st & H1 & H3). apply pad_loop_w in H1; try lia. subst st.
        apply ret_w in H3. subst b. apply ret_w in H2. subst r. split; [exact H|]. cbn [fst]. rewrite <- !app_assoc. reflexivity.
      + intros (_ & ->). exists (buf ++ map wir data ++ map wir (repeat f0 (S lim - 1 - length data))). split.
        * apply holds_bind. eexists. split; [apply pad_loop_w; [lia|lia|reflexivity]|]. apply ret_w. cbn [fst]. rewrite <- app_assoc. reflexivity.
        * apply ret_w. cbn [map]. rewrite <- !app_assoc. reflexivity.
    - destruct data; [cbn in H; lia|]. cbn [length Nat.eqb]. rewrite holds_bind. split; [intros (? & [] & _)|]. cbn [length] in H. lia.
  Qed.
  Lemma padded_s hs v (data : list F) (buf : list (elem F F)) st :
    simulate (padded_write F F f1 true hs (Some v) (map hon data) buf) st
    = if length data <? hs then Some (buf ++ map hon (padded hs v data), st) else None.
  Proof.
    unfold padded_write, padded_content_write. rewrite sim_bind, e_constant_s. destruct hs as [|lim]; [reflexivity|].
    rewrite write_all_ok, map_length. cbn [Nat.add].
    destruct (Nat.ltb_spec (length data) (S lim)) as [H|H].
    - assert (E : (if length data =? 0 then Some (buf, 0) else Some (buf ++ map hon data, length data)) = Some (buf ++ map hon data, length data)).
      { destruct data; cbn [length Nat.eqb map]; [rewrite app_nil_r|]; reflexivity. }
      rewrite E. rewrite sim_bind, sim_bind, pad_loop_s by lia. cbn [simulate fst]. unfold padded. rewrite !map_app. cbn [map]. rewrite <- !app_assoc. reflexivity.
    - destruct data; [cbn in H; lia|]. reflexivity.
  Qed.
  Lemma padded_len hs (v : F) data : length data < hs -> length (padded hs v data) = hs.
  Proof. intros H. unfold padded. rewrite !app_length, repeat_length. cbn [length]. lia. Qed.
  Lemma padded_inj hs (v v' : F) d d' : length d < hs -> length d' < hs ->
    (padded hs v d = padded hs v' d' <-> v = v' /\ d ++ repeat f0 (hs - 1 - length d) = d' ++ repeat f0 (hs - 1 - length d')).
  Proof.
    intros H H'. unfold padded. rewrite !app_assoc. split.
    - intros E. apply app_inj_tail in E. tauto.
    - intros (-> & E). rewrite E. reflexivity.
  Qed.

  Lemma emulated_ok hs (v : F) data : emulated_padded F hs (Some v) data = if length data <? hs then Some (padded hs v data) else None.
  Proof.
    unfold emulated_padded. change (fun v0 : F => mk_elem F F v0 (Some v0)) with (@hon F). rewrite padded_s.
    destruct (length data <? hs); [|reflexivity]. cbn [app]. rewrite map_map. cbn [hon ew]. rewrite map_id. reflexivity.
  Qed.
  Lemma alloc_all_w : forall n r, holds (alloc_all F F (repeat None n)) r <-> exists h, length h = n /\ r = map wir h.
  Proof.
    induction n as [|n IH]; intros r; cbn [repeat alloc_all].
    - rewrite ret_w. split; [intros ->; exists []; auto|]. intros (h & L & ->). destruct h; [reflexivity|discriminate].
    - rewrite holds_bind. split.
      + intros (e & H1 & H2). apply alloc_w in H1. destruct H1 as (v & ->). apply holds_bind in H2. destruct H2 as (es & H2 & H3).
        apply IH in H2. destruct H2 as (h & L & ->). apply ret_w in H3. exists (v :: h). cbn [length map]. auto.
      + intros (h & L & ->). destruct h as [|v h]; [discriminate|]. exists (wir v). split; [apply alloc_w; eauto|].
        apply holds_bind. exists (map wir h). split; [apply IH; exists h; auto|]. apply ret_w. reflexivity.
  Qed.
  Lemma alloc_all_s : forall vs st, simulate (alloc_all F F (map Some vs)) st = Some (map hon vs, bump st (length vs) 0 0).
  Proof.
    induction vs as [|v vs IH]; intros st; cbn [map alloc_all length].
    - cbn [simulate]. f_equal. f_equal. destruct st; unfold bump; cbn; f_equal; lia.
    - rewrite sim_bind, alloc_s, sim_bind, IH. cbn [simulate]. rewrite bump_bump. reflexivity.
  Qed.
  Lemma map_none {A B : Type} (l : list A) : map (fun _ => @None B) l = repeat None (length l).
  Proof. induction l; cbn; congruence. Qed.

  Lemma adapter_gadgets_w hs (vl vr vo : F) dl dr do r :
    holds (adapter_write F F f1 false hs (Some vl) (Some vr) (Some vo) (EncGadget (map wir dl)) (EncGadget (map wir dr)) (EncGadget (map wir do))) r <->
    (length dl < hs /\ length dr < hs /\ length do < hs) /\ r = map wir (padded hs vl dl ++ padded hs vr dr ++ padded hs vo do).
  Proof.
    unfold adapter_write, encoded_write. split.
    - intros H. apply holds_bind in H. destruct H as (b1 & H1 & H). apply padded_w in H1. destruct H1 as (L1 & ->).
      apply holds_bind in H. destruct H as (b2 & H2 & H). apply padded_w in H2. destruct H2 as (L2 & ->).
      apply holds_bind in H. destruct H as (b3 & H3 & H). apply padded_w in H3. destruct H3 as (L3 & ->).
      destruct (_ =? _) in H; [|destruct H]. apply ret_w in H. subst r. split; [auto|]. cbn [app]. rewrite !map_app, <- app_assoc. reflexivity.
    - intros ((L1 & L2 & L3) & ->). apply holds_bind. eexists. split; [apply padded_w; split; [exact L1|reflexivity]|].
      apply holds_bind. eexists. split; [apply padded_w; split; [exact L2|reflexivity]|].
      apply holds_bind. eexists. split; [apply padded_w; split; [exact L3|reflexivity]|].
      cbn [app]. rewrite !app_length, !map_length, !padded_len by assumption. replace (hs + hs + hs =? hs * 3) with true by (symmetry; apply Nat.eqb_eq; lia).
      apply ret_w. rewrite !map_app, <- app_assoc. reflexivity.
  Qed.
  Lemma adapter_gadgets_s hs (vl vr vo : F) dl dr do st :
    length dl < hs -> length dr < hs -> length do < hs ->
    simulate (adapter_write F F f1 true hs (Some vl) (Some vr) (Some vo) (EncGadget (map hon dl)) (EncGadget (map hon dr)) (EncGadget (map hon do))) st
    = Some (map hon (padded hs vl dl ++ padded hs vr dr ++ padded hs vo do), st).
  Proof.
    intros L1 L2 L3. unfold adapter_write, encoded_write.
    rewrite sim_bind, padded_s, (proj2 (Nat.ltb_lt _ _) L1), sim_bind, padded_s, (proj2 (Nat.ltb_lt _ _) L2), sim_bind, padded_s, (proj2 (Nat.ltb_lt _ _) L3).
    cbn [app]. rewrite !app_length, !map_length, !padded_len by assumption. replace (hs + hs + hs =? hs * 3) with true by (symmetry; apply Nat.eqb_eq; lia).
    cbn [simulate]. rewrite !map_app, <- app_assoc. reflexivity.
  Qed.
End Pad.

(** ** registration *)
Section Reg.
  Variables (F Fs : Field).
  Lemma header_get_in m s t : header_get m s = Some t -> In (s, t) m.
  Proof.
    induction m as [|(s', t') m IH]; cbn [header_get]; [discriminate|]. destruct (suffix_eqb s' s) eqn:E.
    - apply suffix_eqb_eq in E. intros H. left. congruence.
    - intros H. right. auto.
  Qed.
  Lemma header_get_none m s : header_get m s = None -> forall t, ~ In (s, t) m.
  Proof.
    induction m as [|(s', t') m IH]; cbn [header_get]; [auto|]. destruct (suffix_eqb s' s) eqn:E; [discriminate|].
    intros H t [X|X]; [|eapply IH; eauto]. injection X as -> ->. assert (suffix_eqb s s = true) by (apply suffix_eqb_eq; reflexivity). congruence.
  Qed.
  (** a map that represents the headers seen so far *)
  Definition represents (m : list (suffix * nat)) (hs : list header) : Prop :=
    forall s t, header_get m s = Some t <-> exists h, In h hs /\ h_suffix h = s /\ h_type h = t.
  Lemma represents_consistent m hs : represents m hs -> consistent hs.
  Proof.
    intros R h h' I I' E. assert (A : header_get m (h_suffix h) = Some (h_type h)) by (apply R; eauto).
    assert (B : header_get m (h_suffix h') = Some (h_type h')) by (apply R; eauto). rewrite E in A. congruence.
  Qed.
  Lemma prevent_ok m hs h : represents m hs ->
    (forall m', prevent_dup h m = Some m' -> represents m' (hs ++ [h])) /\
    (prevent_dup h m <> None <-> consistent (hs ++ [h])).
  Proof.
    intros R. pose proof (represents_consistent m hs R) as C. unfold prevent_dup. destruct (header_get m (h_suffix h)) as [t|] eqn:E.
    - pose proof (proj1 (R _ _) E) as (h0 & I0 & S0 & T0). destruct (Nat.eqb_spec t (h_type h)) as [->|N].
      + assert (RR : represents m (hs ++ [h])).
        { intros s t'. rewrite (R s t'). split.
          - intros (h1 & I1 & K). exists h1. split; [apply in_or_app; auto|exact K].
          - intros (h1 & I1 & Sx & Tx). apply in_app_or in I1. destruct I1 as [I1|[<-|[]]]; [exists h1; auto|]. exists h0. split; [exact I0|]. split; congruence. }
        split; [intros m' H; injection H as <-; exact RR|]. split; [intros _; eapply represents_consistent; exact RR|discriminate].
      + split; [discriminate|]. split; [congruence|]. intros CC. exfalso. apply N. rewrite <- T0. apply CC; [apply in_or_app; auto|apply in_or_app; right; left; reflexivity|exact S0].
    - assert (RR : represents ((h_suffix h, h_type h) :: m) (hs ++ [h])).
      { intros s t. cbn [header_get]. destruct (suffix_eqb (h_suffix h) s) eqn:Es.
        - apply suffix_eqb_eq in Es. subst s. split.
          + intros H. exists h. split; [apply in_or_app; right; left; reflexivity|]. split; congruence.
          + intros (h1 & I1 & S1 & T1). apply in_app_or in I1. destruct I1 as [I1|[<-|[]]]; [|congruence].
            exfalso. assert (header_get m (h_suffix h) = Some t) by (apply R; eauto). congruence.
        - rewrite (R s t). split.
          + intros (h1 & I1 & K). exists h1. split; [apply in_or_app; auto|exact K].
          + intros (h1 & I1 & S1 & T1). apply in_app_or in I1. destruct I1 as [I1|[<-|[]]]; [eauto|].
            assert (suffix_eqb (h_suffix h) s = true) by (apply suffix_eqb_eq; exact S1). congruence. }
      split; [intros m' H; injection H as <-; exact RR|]. split; [intros _; eapply represents_consistent; exact RR|discriminate].
  Qed.
  Lemma consistent_app_l a b : consistent (a ++ b) -> consistent a.
  Proof. intros C h h' I I'. apply C; apply in_or_app; auto. Qed.

  Definition state_ok (b : app_builder F Fs) (done : list (step F)) : Prop :=
    map Some (rb_app F (ab_native b)) = map st_obj done /\ rb_internal F (ab_native b) = [] /\ rb_bonding F (ab_native b) = [] /\ rb_steps F (ab_native b) = [] /\
    ab_nested b = rb_new Fs /\ ab_steps b = length done /\ represents (ab_headers b) (flat_map step_headers done).
  Lemma register_ok b done s : state_ok b done ->
    (forall b', register F Fs b s = Some b' -> state_ok b' (done ++ [s])) /\
    (register F Fs b s <> None <-> st_index s = StApplication (length done) /\ st_obj s <> None /\ consistent (flat_map step_headers (done ++ [s]))).
  Proof.
    intros (A & I & B & St & Ne & N & R). unfold register.
    rewrite flat_map_app. cbn [flat_map]. rewrite app_nil_r. change (step_headers s) with [st_output s; st_left s; st_right s].
    assert (AI : assert_index (st_index s) (ab_steps b) <> None <-> st_index s = StApplication (length done)).
    { rewrite N. unfold assert_index. destruct (st_index s) as [i|i]; [split; congruence|]. destruct (Nat.eqb_spec i (length done)); split; congruence. }
    destruct (assert_index (st_index s) (ab_steps b)) as [[]|]; cbn [obind].
    2:{ split; [discriminate|]. split; [congruence|]. intros (H & _). exfalso. apply AI in H. congruence. }
    assert (IX : st_index s = StApplication (length done)) by (apply AI; discriminate).
    set (H0 := flat_map step_headers done) in *.
    change [st_output s; st_left s; st_right s] with ([st_output s] ++ [st_left s] ++ [st_right s]).
    destruct (prevent_ok _ _ (st_output s) R) as (P1 & Q1). destruct (prevent_dup (st_output s) (ab_headers b)) as [m1|]; cbn [obind].
    2:{ split; [discriminate|]. split; [congruence|]. intros (_ & _ & C). exfalso. rewrite app_assoc in C. apply consistent_app_l in C. apply Q1 in C. congruence. }
    specialize (P1 m1 eq_refl). destruct (prevent_ok _ _ (st_left s) P1) as (P2 & Q2). destruct (prevent_dup (st_left s) m1) as [m2|]; cbn [obind].
    2:{ split; [discriminate|]. split; [congruence|]. intros (_ & _ & C). exfalso. rewrite !app_assoc in C. apply consistent_app_l in C. apply Q2 in C. congruence. }
    specialize (P2 m2 eq_refl). destruct (prevent_ok _ _ (st_right s) P2) as (P3 & Q3). destruct (prevent_dup (st_right s) m2) as [m3|]; cbn [obind].
    2:{ split; [discriminate|]. split; [congruence|]. intros (_ & _ & C). exfalso. rewrite !app_assoc in C. apply Q3 in C. congruence. }
    specialize (P3 m3 eq_refl). destruct (st_obj s) as [o|] eqn:Eo; cbn [obind].
    2:{ split; [discriminate|]. split; [congruence|]. intros (_ & C & _). congruence. }
    rewrite !app_assoc. split.
    - intros b' H. injection H as <-. unfold state_ok. cbn [ab_native ab_nested ab_steps ab_headers register_circuit rb_app rb_internal rb_bonding rb_steps].
      rewrite !map_app, A. cbn [map]. rewrite Eo. repeat apply conj; auto.
      + rewrite app_length. cbn [length]. lia.
      + rewrite flat_map_app. cbn [flat_map]. rewrite app_nil_r. unfold step_headers at 2. fold H0.
        change [st_output s; st_left s; st_right s] with ([st_output s] ++ [st_left s] ++ [st_right s]). rewrite !app_assoc. exact P3.
    - split; [|discriminate]. intros _. split; [exact IX|]. split; [discriminate|]. apply Q3. discriminate.
  Qed.
  Lemma steps_ok : forall l b done, state_ok b done ->
    (forall b', register_steps F Fs b l = Some b' -> state_ok b' (done ++ l)) /\
    (register_steps F Fs b l <> None <->
       (forall i s, nth_error l i = Some s -> st_index s = StApplication (length done + i) /\ st_obj s <> None) /\ (l <> [] -> consistent (flat_map step_headers (done ++ l)))).
  Proof.
    induction l as [|s l IH]; intros b done SO; cbn [register_steps].
    - rewrite app_nil_r. split; [intros b' H; injection H as <-; exact SO|]. split; [|discriminate]. intros _. split; [intros [|i] s; discriminate|congruence].
    - destruct (register_ok b done s SO) as (P & Q). destruct (register F Fs b s) as [b1|]; cbn [obind].
      + specialize (P b1 eq_refl). destruct (IH b1 (done ++ [s]) P) as (P' & Q'). rewrite <- app_assoc in P'. cbn [app] in P'. split; [exact P'|].
        rewrite Q'. destruct (proj1 Q) as (IX & OB & C); [discriminate|]. rewrite <- app_assoc. cbn [app]. split.
        * intros (HI & HC). split.
          -- intros [|i] s' E.
             ++ injection E as <-. rewrite Nat.add_0_r. auto.
             ++ cbn [nth_error] in E. specialize (HI i s' E). rewrite app_length in HI. cbn [length] in HI. replace (length done + S i) with (length done + 1 + i) by lia. exact HI.
          -- intros _. destruct l; [exact C|]. apply HC. discriminate.
        * intros (HI & HC). split.
          -- intros i s' E. specialize (HI (S i) s' E). rewrite app_length. cbn [length]. replace (length done + 1 + i) with (length done + S i) by lia. exact HI.
          -- intros _. apply HC. discriminate.
      + split; [discriminate|]. split; [congruence|]. intros (HI & HC). exfalso. apply (proj2 Q); [|reflexivity].
        destruct (HI 0 s eq_refl) as (X & Y). rewrite Nat.add_0_r in X. split; [exact X|]. split; [exact Y|].
        specialize (HC ltac:(discriminate)). change (s :: l) with ([s] ++ l) in HC. rewrite app_assoc, flat_map_app in HC. apply consistent_app_l in HC. exact HC.
  Qed.
  Lemma new_ok : state_ok (ab_new F Fs) [].
  Proof. repeat apply conj; try reflexivity. intros s t. cbn. split; [discriminate|]. intros (h & [] & _). Qed.

  (** internal registrations *)
  Definition is_mask (id : icid) : bool :=
    match id with Hashes1Circuit | Hashes2Circuit | InnerCollapseCircuit | OuterCollapseCircuit | ComputeVCircuit => false | _ => true end.
  Fixpoint objs {I O : Type} (f : I -> option O) (l : list I) : option (list O) :=
    match l with [] => Some [] | i :: r => obind (f i) (fun o => option_map (cons o) (objs f r)) end.
  Lemma native_fold obj : forall l b, (forall r, fold_left (native_register F obj) l None = Some r -> False) /\
    fold_left (native_register F obj) l (Some b) =
    obind (objs obj (filter (fun i => negb (is_mask i)) l)) (fun c => obind (objs obj (filter is_mask l)) (fun m =>
      Some (mk_builder F (rb_internal F b ++ c) (rb_bonding F b ++ m) (rb_steps F b) (rb_app F b)))).
  Proof.
    intros l. assert (NN : fold_left (native_register F obj) l None = None) by (induction l; cbn; auto).
    induction l as [|id l IH]; intros b; [split; [discriminate|]; cbn; rewrite !app_nil_r; destruct b; reflexivity|].
    split; [rewrite NN; discriminate|]. cbn [fold_left]. cbn [fold_left] in NN. unfold native_register at 2. cbn [obind].
    assert (NN' : fold_left (native_register F obj) l None = None) by (clear; induction l; cbn; auto).
    destruct (obj id) as [o|] eqn:Eo; cbn [obind].
    - rewrite (proj2 (IH NN' _)).
      assert (X : (match id with Hashes1Circuit | Hashes2Circuit | InnerCollapseCircuit | OuterCollapseCircuit | ComputeVCircuit => register_internal_circuit F o b | _ => register_bonding F o b end)
        = if is_mask id then register_bonding F o b else register_internal_circuit F o b) by (destruct id; reflexivity).
      rewrite X. cbn [filter]. destruct (is_mask id); cbn [negb objs].
      + rewrite Eo. cbn [obind]. destruct (objs obj (filter (fun i => negb (is_mask i)) l)); cbn [obind]; [|reflexivity]. destruct (objs obj (filter is_mask l)); cbn [option_map obind]; [|reflexivity].
        cbn [register_bonding rb_internal rb_bonding rb_steps rb_app]. rewrite <- app_assoc. reflexivity.
      + rewrite Eo. cbn [obind]. destruct (objs obj (filter (fun i => negb (is_mask i)) l)); cbn [option_map obind]; [|reflexivity]. destruct (objs obj (filter is_mask l)); cbn [obind]; [|reflexivity].
        cbn [register_internal_circuit rb_internal rb_bonding rb_steps rb_app]. rewrite <- app_assoc. reflexivity.
    - rewrite NN'. cbn [filter]. destruct (is_mask id); cbn [negb objs]; rewrite Eo; cbn [obind]; [destruct (objs obj (filter (fun i => negb (is_mask i)) l)); reflexivity|reflexivity].
  Qed.
  Lemma objs_map {I O : Type} (f : I -> option O) l : forall r, objs f l = Some r <-> map f l = map Some r.
  Proof.
    induction l as [|i l IH]; intros r; cbn [objs map].
    - split; [intros H; injection H as <-; reflexivity|]. destruct r; [reflexivity|discriminate].
    - destruct (f i) as [o|]; cbn [obind].
      + destruct (objs f l) as [r'|] eqn:E; cbn [option_map].
        * split; [intros H; injection H as <-; cbn [map]; f_equal; apply IH; reflexivity|]. destruct r as [|x r]; [discriminate|]. cbn [map]. intros H. injection H as -> H. apply IH in H. congruence.
        * split; [discriminate|]. destruct r as [|x r]; [discriminate|]. cbn [map]. intros H. injection H as -> H. apply IH in H. discriminate.
      + split; [discriminate|]. destruct r; discriminate.
  Qed.
  Lemma objs_some {I O : Type} (f : I -> option O) l : objs f l <> None <-> forall i, In i l -> f i <> None.
  Proof.
    induction l as [|i l IH]; cbn [objs]; [split; [intros _ i []|discriminate]|]. destruct (f i) as [o|] eqn:E; cbn [obind].
    - split.
      + intros H j [<-|Hj]; [congruence|]. apply IH; [destruct (objs f l); [discriminate|exact H]|exact Hj].
      + intros H. assert (objs f l <> None) by (apply IH; intros j Hj; apply H; right; exact Hj). destruct (objs f l); [discriminate|congruence].
    - split; [congruence|]. intros H _. apply (H i); [left; reflexivity|exact E].
  Qed.
  Lemma objs_len {I O : Type} (f : I -> option O) l r : objs f l = Some r -> length r = length l.
  Proof. intros H. apply objs_map in H. apply (f_equal (@length _)) in H. rewrite !map_length in H. auto. Qed.
  Lemma objs_nth {I O : Type} (f : I -> option O) l r i x : objs f l = Some r -> nth_error l i = Some x -> nth_error r i = f x.
  Proof.
    intros H E. apply objs_map in H. apply (f_equal (fun l => nth_error l i)) in H. rewrite !nth_error_map, E in H. cbn in H.
    destruct (nth_error r i); cbn in H; congruence.
  Qed.

  Lemma nested_fold obj : forall l b, fold_left (nested_register Fs obj) l (Some b) =
    obind (objs obj (filter (fun i => match i with NStep _ => true | _ => false end) l)) (fun c =>
    obind (objs obj (filter (fun i => match i with NStep _ => false | _ => true end) l)) (fun m =>
      Some (mk_builder Fs (rb_internal Fs b ++ c) (rb_bonding Fs b ++ m) (rb_steps Fs b) (rb_app Fs b)))).
  Proof.
    assert (NN : forall l, fold_left (nested_register Fs obj) l None = None) by (intros l; induction l; cbn; auto).
    induction l as [|id l IH]; intros b; [cbn; rewrite !app_nil_r; destruct b; reflexivity|].
    cbn [fold_left]. unfold nested_register at 2. cbn [obind]. destruct (obj id) as [o|] eqn:Eo; cbn [obind].
    - rewrite IH. destruct id; cbn [filter objs]; rewrite Eo; cbn [obind];
      destruct (objs obj (filter (fun i => match i with NStep _ => true | _ => false end) l)); cbn [obind option_map]; try reflexivity;
      destruct (objs obj (filter (fun i => match i with NStep _ => false | _ => true end) l)); cbn [obind option_map]; try reflexivity;
      cbn [register_internal_circuit register_bonding rb_internal rb_bonding rb_steps rb_app]; rewrite <- app_assoc; reflexivity.
    - rewrite NN. destruct id; cbn [filter objs]; rewrite Eo; cbn [obind]; try reflexivity;
      destruct (objs obj (filter (fun i => match i with NStep _ => true | _ => false end) l)); reflexivity.
  Qed.
  Lemma filter_steps n : filter (fun i => match i with NStep _ => true | _ => false end) (ncid_all n) = map NStep (seq 0 n) /\
    filter (fun i => match i with NStep _ => false | _ => true end) (ncid_all n) = [NEndoscalar; NPoints; NPointsFinal; NBridgePreamble; NBridgeSPrime; NBridgeInnerError; NBridgeOuterError;
   NBridgeAB; NBridgeQuery; NBridgeF; NBridgeEval].
  Proof.
    unfold ncid_all. rewrite !filter_app. split.
    - cbn [filter]. rewrite app_nil_r. induction (seq 0 n); cbn; congruence.
    - assert (X : filter (fun i => match i with NStep _ => false | _ => true end) (map NStep (seq 0 n)) = []) by (induction (seq 0 n); cbn; auto). rewrite X. reflexivity.
  Qed.
End Reg.

Lemma position_ok {T : Type} (eqb : T -> T -> bool) (E : forall a b, eqb a b = true <-> a = b) (l : list T) x i :
  NoDup l -> (position (eqb x) l = Some i <-> nth_error l i = Some x).
Proof.
  revert i. induction l as [|y l IH]; intros i ND; cbn [position].
  - destruct i; split; discriminate.
  - inversion ND as [|? ? NI ND']; subst. destruct (eqb x y) eqn:Exy.
    + apply E in Exy. subst y. destruct i as [|i]; cbn [nth_error]; [split; reflexivity|]. split; [discriminate|]. intros H. exfalso. apply NI. eapply nth_error_In. exact H.
    + destruct i as [|i]; cbn [nth_error].
      * split; [destruct (position (eqb x) l); discriminate|]. intros H. injection H as ->. assert (eqb x x = true) by (apply E; reflexivity). congruence.
      * rewrite <- IH by exact ND'. destruct (position (eqb x) l); cbn; split; congruence.
Qed.
Lemma ncid_eqb_eq a b : ncid_eqb a b = true <-> a = b.
Proof. destruct a, b; cbn; rewrite ?Nat.eqb_eq; split; congruence. Qed.
Lemma ncid_nodup n : NoDup (ncid_all n).
Proof.
  unfold ncid_all. assert (A : NoDup (map NStep (seq 0 n))).
  { apply FinFun.Injective_map_NoDup; [intros a b H; congruence|apply seq_NoDup]. }
  assert (B : NoDup [NEndoscalar; NPoints; NPointsFinal; NBridgePreamble; NBridgeSPrime; NBridgeInnerError; NBridgeOuterError; NBridgeAB; NBridgeQuery; NBridgeF; NBridgeEval]).
  { repeat constructor; cbn; intuition discriminate. }
  revert A. induction (seq 0 n) as [|s l IH]; intros A; [exact B|]. cbn [map app] in *. inversion A as [|? ? NI A']; subst. constructor; [|auto].
  intros H. apply in_app_or in H. destruct H as [H|H]; [auto|]. cbn in H. intuition discriminate.
Qed.
