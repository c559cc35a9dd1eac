From Coq Require Import List Arith Lia Bool Field.
From Verif Require Import FieldDef ModDef ArithModel FFTProofs SparseModel SparseSpec.
Import ListNotations.

Section P.
  Variable F : Field.
  Add Field FFsp : (f_theory F).
  Open Scope f_scope.
  Local Notation block := (nat * list F)%type.
  Local Notation poly := (list (nat * list F)).

  Ltac bsplit := repeat match goal with
    | |- context [?a <=? ?b] => destruct (Nat.leb_spec a b)
    | |- context [?a <? ?b] => destruct (Nat.ltb_spec a b) end; cbn [andb].

  Definition bcoef (b : block) (k : nat) : F :=
    if (fst b <=? k) && (k <? fst b + length (snd b)) then nth (k - fst b) (snd b) f0 else f0.

  Lemma wf_weaken : forall bs lo hi lo' hi', wf (F:=F) lo hi bs -> lo' <= lo -> hi <= hi' -> wf lo' hi' bs.
  Proof.
    induction bs as [|[s d] bs IH]; intros lo hi lo' hi' H H1 H2; simpl in *; auto.
    destruct H as (A & B & C & D). repeat split; auto; try lia. eapply IH; eauto; lia.
  Qed.
  Lemma coeff_low : forall bs lo hi k, wf (F:=F) lo hi bs -> k < lo -> coeff_at bs k = 0.
  Proof.
    induction bs as [|[s d] bs IH]; intros lo hi k H Hk; simpl in *; auto.
    destruct H as (A & B & C & D). bsplit; try lia; eapply IH; eauto; lia.
  Qed.
  Lemma coeff_high : forall bs lo hi k, wf (F:=F) lo hi bs -> hi <= k -> coeff_at bs k = 0.
  Proof.
    induction bs as [|[s d] bs IH]; intros lo hi k H Hk; simpl in *; auto.
    destruct H as (A & B & C & D). bsplit; try lia; eapply IH; eauto; lia.
  Qed.
  Lemma wf_app : forall A lo m hi B, wf (F:=F) lo m A -> wf m hi B -> lo <= m -> m <= hi -> wf lo hi (A ++ B).
  Proof.
    induction A as [|[s d] A IH]; intros lo m hi B HA HB Hl Hm; simpl in *.
    - eapply wf_weaken; eauto.
    - destruct HA as (a & b & c & D). repeat split; auto; try lia. eapply IH; eauto; lia.
  Qed.
  Lemma coeff_app : forall A lo m hi B k, wf (F:=F) lo m A -> wf m hi B ->
    coeff_at (A ++ B) k = if k <? m then coeff_at A k else coeff_at B k.
  Proof.
    induction A as [|[s d] A IH]; intros lo m hi B k HA HB; simpl in *.
    - destruct (Nat.ltb_spec k m); auto. eapply coeff_low; eauto.
    - destruct HA as (a & b & c & D). rewrite (IH _ _ _ _ _ D HB).
      destruct (Nat.leb_spec s k); destruct (Nat.ltb_spec k (s + length d)); cbn [andb]; auto.
      destruct (Nat.ltb_spec k m); auto; lia.
  Qed.
  Lemma coeff_cons : forall (b : block) bs lo hi k, wf lo hi (b :: bs) ->
    coeff_at (b :: bs) k = bcoef b k + coeff_at bs k.
  Proof.
    intros [s d] bs lo hi k H. simpl in H. destruct H as (a & b & c & D). unfold bcoef. simpl.
    destruct (Nat.leb_spec s k); destruct (Nat.ltb_spec k (s + length d)); cbn [andb]; try ring.
    rewrite (coeff_low _ _ _ _ D) by lia. ring.
  Qed.
  Lemma coeff_lsum : forall bs lo hi k, wf lo hi bs -> coeff_at bs k = lsum (map (fun b => bcoef b k) bs).
  Proof.
    induction bs as [|b bs IH]; intros lo hi k H; [reflexivity|].
    rewrite (coeff_cons _ _ _ _ _ H). unfold lsum. cbn [map fold_right]. f_equal.
    destruct b as [s d]. simpl in H. eapply IH. apply H.
  Qed.
  Lemma bcoef_single : forall b k, coeff_at [b] k = bcoef b k.
  Proof. intros [s d] k. unfold bcoef. simpl. reflexivity. Qed.

  (** ** the run-time check is well-formedness *)
  Lemma check_wf : forall NC bs i pe, check_blocks NC i pe bs = true <->
     match bs with [] => True | _ => wf (F:=F) (if 0 <? i then pe else 0%nat) NC bs end.
  Proof.
    intros NC; induction bs as [|[s d] bs IH]; intros i pe; [simpl; tauto|].
    cbn [check_blocks]. rewrite !andb_true_iff, (IH (S i)), negb_true_iff, Nat.eqb_neq, Nat.leb_le.
    change (0 <? S i) with true.
    assert (Hd : length d <> 0%nat <-> d <> []) by (destruct d; simpl; split; congruence || auto).
    rewrite Hd. cbn [wf].
    assert (Hp : (if 0 <? i then pe <=? s else true) = true <-> (if 0 <? i then pe else 0%nat) <= s).
    { destruct (0 <? i); [apply Nat.leb_le| split; intros; auto; lia]. }
    rewrite Hp. destruct bs as [|b' bs']; [simpl; tauto|]. tauto.
  Qed.
  Lemma check_iff : forall NC bs, check_blocks NC 0 0 bs = true <-> wf (F:=F) 0 NC bs.
  Proof. intros. rewrite check_wf. destruct bs; simpl; tauto. Qed.
  Lemma from_blocks_some : forall NC bs p, from_blocks (F:=F) NC bs = Some p <-> p = bs /\ wf 0 NC bs.
  Proof.
    intros. unfold from_blocks. rewrite <- check_iff. destruct (check_blocks NC 0 0 bs); split;
      try intros [? ?]; try congruence. intros E. injection E as <-. auto.
  Qed.

  (** ** extend_runs *)
  Lemma runs_acc : forall data base i rs run zc out,
    runs_loop (F:=F) base i rs run zc out data = out ++ runs_loop base i rs run zc [] data.
  Proof.
    induction data as [|c data IH]; intros base i rs run zc out; simpl.
    - destruct rs; auto. now rewrite app_nil_r.
    - destruct rs as [s|]; destruct (feqb c 0).
      + destruct (GAP_TOLERANCE <? zc + 1); auto.
        rewrite IH. rewrite (IH _ _ _ _ _ [(s, run)]). now rewrite app_assoc.
      + auto.
      + auto.
      + auto.
  Qed.
  Lemma extend_runs_acc : forall (out : poly) base data, extend_runs out base data = out ++ extend_runs [] base data.
  Proof. intros. apply runs_acc. Qed.

  Lemma bcoef_cons0 : forall s (d : list F) k, bcoef (s, 0 :: d) k = bcoef (S s, d) k.
  Proof.
    intros. unfold bcoef. cbn [fst snd length].
    destruct (Nat.leb_spec s k); destruct (Nat.ltb_spec k (s + S (length d)));
    destruct (Nat.leb_spec (S s) k); destruct (Nat.ltb_spec k (S s + length d)); cbn [andb]; try lia; auto.
    - replace (k - s)%nat with (S (k - S s)) by lia. reflexivity.
    - replace (k - s)%nat with 0%nat by lia. reflexivity.
  Qed.
  Lemma bcoef_app : forall s (d1 d2 : list F) k,
    bcoef (s, d1 ++ d2) k = if k <? s + length d1 then bcoef (s, d1) k else bcoef ((s + length d1)%nat, d2) k.
  Proof.
    intros. unfold bcoef. cbn [fst snd]. rewrite app_length.
    destruct (Nat.ltb_spec k (s + length d1)); destruct (Nat.leb_spec s k); cbn [andb];
     try (destruct (Nat.ltb_spec k (s + (length d1 + length d2)))); try lia; auto.
    - rewrite app_nth1 by lia. auto.
    - rewrite app_nth2 by lia. destruct (Nat.leb_spec (s + length d1) k); try lia.
      destruct (Nat.ltb_spec k (s + length d1 + length d2)); try lia. cbn [andb]. f_equal. lia.
    - destruct (Nat.leb_spec (s + length d1) k); try lia.
      destruct (Nat.ltb_spec k (s + length d1 + length d2)); try lia. reflexivity.
  Qed.
  Lemma bcoef_zeros : forall s m k, bcoef (s, repeat (f0 : F) m) k = 0.
  Proof. intros. unfold bcoef. cbn [fst snd]. destruct (_ && _); auto. apply nth_repeat. Qed.
  Lemma bcoef_app_zeros : forall s (d : list F) m k, bcoef (s, d ++ repeat 0 m) k = bcoef (s, d) k.
  Proof.
    intros. rewrite bcoef_app. destruct (Nat.ltb_spec k (s + length d)); auto.
    rewrite bcoef_zeros. unfold bcoef. cbn [fst snd]. bsplit; try lia; auto.
  Qed.

  Lemma runs_ok : forall data base i run_start (run : list F) zc,
    match run_start with
    | None => run = [] /\ zc = 0%nat
    | Some s => run <> [] /\ (s + length run + zc = base + i)%nat
    end ->
    let st := match run_start with None => (base + i)%nat | Some s => s end in
    let dat := match run_start with None => data | Some _ => run ++ repeat 0 zc ++ data end in
    wf st (base + i + length data) (runs_loop base i run_start run zc [] data) /\
    forall k, coeff_at (runs_loop base i run_start run zc [] data) k = bcoef (st, dat) k.
  Proof.
    induction data as [|c data IH]; intros base i run_start run zc Hst.
    - simpl. destruct run_start as [s|].
      + destruct Hst as [Hr Hs]. split; [cbn [app wf]; repeat split; auto; lia|].
        intros k. rewrite app_nil_r, bcoef_app_zeros. reflexivity.
      + split; [exact I|]. intros k. unfold bcoef. simpl. bsplit; auto; lia.
    - cbn [runs_loop length]. destruct run_start as [s|].
      + destruct Hst as [Hr Hs]. destruct (feqb c 0) eqn:Ec.
        * apply feqb_true in Ec. subst c.
          destruct (GAP_TOLERANCE <? zc + 1).
          -- rewrite runs_acc. simpl app.
             destruct (IH base (S i) None [] 0%nat (conj eq_refl eq_refl)) as [W C]. cbn zeta in *.
             split.
             ++ simpl wf. repeat split; auto; try lia. eapply wf_weaken; eauto; lia.
             ++ intros k. rewrite coeff_cons with (lo := s) (hi := (base + S i + length data)%nat)
                  by (simpl; repeat split; auto; try lia; eapply wf_weaken; eauto; lia).
                rewrite C. rewrite bcoef_app. rewrite bcoef_app, repeat_length.
                rewrite bcoef_cons0, bcoef_zeros.
                replace (S (s + length run + zc)) with (base + S i)%nat by lia.
                destruct (Nat.ltb_spec k (s + length run)).
                ** assert (E : bcoef ((base + S i)%nat, data) k = 0) by (unfold bcoef; simpl; bsplit; auto; lia).
                   rewrite E. ring.
                ** assert (E : bcoef (s, run) k = 0) by (unfold bcoef; simpl; bsplit; auto; lia).
                   rewrite E. destruct (Nat.ltb_spec k (s + length run + zc)); [|ring].
                   unfold bcoef; simpl; bsplit; try lia; ring.
          -- destruct (IH base (S i) (Some s) run (zc + 1)%nat) as [W C]; [split; auto; lia|].
             cbn zeta in *. split; [eapply wf_weaken; eauto; lia|].
             intros k. rewrite C. rewrite repeat_app. simpl. now rewrite <- app_assoc.
        * destruct (IH base (S i) (Some s) (run ++ repeat 0 zc ++ [c]) 0%nat) as [W C].
          { split; [destruct run; simpl; congruence|]. rewrite !app_length, repeat_length. simpl. lia. }
          cbn zeta in *. split; [eapply wf_weaken; eauto; lia|].
          intros k. rewrite C. simpl. now rewrite <- !app_assoc.
      + destruct Hst as [-> ->]. destruct (feqb c 0) eqn:Ec.
        * apply feqb_true in Ec. subst c.
          destruct (IH base (S i) None [] 0%nat (conj eq_refl eq_refl)) as [W C]. cbn zeta in *.
          split; [eapply wf_weaken; eauto; lia|]. intros k. rewrite C, bcoef_cons0. f_equal. f_equal. lia.
        * destruct (IH base (S i) (Some (base + i)%nat) ([] ++ [c]) 0%nat) as [W C].
          { split; [discriminate| simpl; lia]. }
          cbn zeta in *. split; [eapply wf_weaken; eauto; lia|]. intros k. rewrite C. reflexivity.
  Qed.
  Lemma extend_runs_ok : forall base (data : list F),
    wf base (base + length data) (extend_runs [] base data) /\
    forall k, coeff_at (extend_runs [] base data) k = bcoef (base, data) k.
  Proof.
    intros. destruct (runs_ok data base 0 None [] 0%nat (conj eq_refl eq_refl)) as [W C].
    cbn zeta in *. rewrite Nat.add_0_r in *. auto.
  Qed.

  (** no leading, trailing zero, nor gap above the tolerance inside a run *)
  Fixpoint gap_ok (z : nat) (l : list F) : Prop :=   (* z zeros seen just before l *)
    match l with
    | [] => z = 0%nat
    | x :: l' => if feqb x 0 then (S z <= GAP_TOLERANCE)%nat /\ gap_ok (S z) l' else gap_ok 0 l'
    end.
  Definition compact (b : block) : Prop :=
    match snd b with [] => False | x :: _ => x <> 0 end /\ gap_ok 0 (snd b).
  Lemma gap_ok_zeros : forall m z l, (z + m <= GAP_TOLERANCE)%nat -> gap_ok (z + m) l -> gap_ok z (repeat 0 m ++ l).
  Proof.
    induction m; intros z l H G; cbn [repeat app].
    - now rewrite Nat.add_0_r in G.
    - cbn [gap_ok]. rewrite feqb_refl. split; [lia|]. apply IHm; [lia|].
      replace (S z + m)%nat with (z + S m)%nat by lia. auto.
  Qed.
  Lemma gap_ok_app : forall l1 z l2, gap_ok z l1 -> (l1 = [] -> z = 0%nat) -> gap_ok 0 l2 -> gap_ok z (l1 ++ l2).
  Proof.
    induction l1 as [|x l1 IH]; intros z l2 H H0 G; simpl in *.
    - rewrite H. auto.
    - destruct (feqb x 0); [destruct H as [Ha Hb]; split; auto|]; apply IH; auto; intros ->; simpl in *; auto.
  Qed.
  Lemma runs_compact : forall data base i run_start (run : list F) zc,
    match run_start with
    | None => run = [] /\ zc = 0%nat
    | Some s => compact (s, run) /\ (zc <= GAP_TOLERANCE)%nat
    end -> Forall compact (runs_loop base i run_start run zc [] data).
  Proof.
    induction data as [|c data IH]; intros base i rs run zc H; cbn [runs_loop].
    - destruct rs; constructor; auto. apply H.
    - destruct rs as [s|].
      + destruct H as [Hc Hz]. destruct (feqb c 0) eqn:Ec.
        * destruct (Nat.ltb_spec GAP_TOLERANCE (zc + 1)).
          -- rewrite runs_acc. cbn [app]; constructor; [auto|apply IH; auto].
          -- apply IH. split; auto.
        * apply IH. split; [|unfold GAP_TOLERANCE; lia]. destruct Hc as [Ha Hb]. split; cbn [snd] in *.
          -- destruct run; [contradiction|exact Ha].
          -- apply gap_ok_app; auto. apply (gap_ok_zeros zc 0 [c]); [simpl; lia|].
             cbn [gap_ok]. now rewrite Ec.
      + destruct H as [-> ->]. destruct (feqb c 0) eqn:Ec.
        * apply IH. auto.
        * apply IH. split; [|unfold GAP_TOLERANCE; lia]. split; cbn [snd app gap_ok].
          -- now apply feqb_false.
          -- now rewrite Ec.
  Qed.
  Lemma extend_runs_compact : forall base (data : list F), Forall compact (extend_runs [] base data).
  Proof. intros. apply runs_compact. auto. Qed.

  Lemma from_coeffs_ok : forall NC (cs : list F), (length cs <= NC)%nat ->
    exists p, from_coeffs NC cs = Some p /\ wf 0 NC p /\ (forall k, coeff_at p k = nth k cs 0) /\ Forall compact p.
  Proof.
    intros NC cs H. exists (extend_runs [] 0 cs).
    destruct (extend_runs_ok 0 cs) as [W C]. simpl in W.
    assert (W' : wf 0 NC (extend_runs [] 0 cs)) by (eapply wf_weaken; eauto).
    unfold from_coeffs. destruct (Nat.leb_spec (length cs) NC); try lia.
    split; [apply from_blocks_some; auto|]. split; auto. split; [|apply extend_runs_compact].
    intros k. rewrite C. unfold bcoef. simpl. rewrite Nat.sub_0_r.
    destruct (Nat.ltb_spec k (length cs)); auto. now rewrite nth_overflow by lia.
  Qed.

  (** ** combine_assign *)
  Lemma zip_with_length : forall g (x d : list F), length x = length d -> length (zip_with g x d) = length d.
  Proof. induction x; destruct d; simpl; intros; auto; try discriminate. Qed.
  Lemma zip_with_nth : forall g (x d : list F) j, length x = length d -> (j < length d)%nat ->
    nth j (zip_with g x d) 0 = g (nth j x 0) (nth j d 0).
  Proof.
    induction x; destruct d; simpl; intros j H Hj; try lia. destruct j; auto. apply IHx; lia.
  Qed.
  Lemma overlay_ok : forall g off (d data : list F), (off + length d <= length data)%nat ->
    exists r, overlay g off d data = Some r /\ length r = length data /\
      forall j, nth j r 0 = if (off <=? j) && (j <? off + length d) then g (nth j data 0) (nth (j - off) d 0)
                            else nth j data 0.
  Proof.
    intros g off d data H. unfold overlay. destruct (Nat.leb_spec (off + length d) (length data)); try lia.
    eexists; split; [reflexivity|].
    assert (Hf : length (firstn (length d) (skipn off data)) = length d).
    { rewrite firstn_length, skipn_length. lia. }
    split.
    - rewrite !app_length, zip_with_length, firstn_length, skipn_length; auto. lia.
    - intros j. destruct (Nat.leb_spec off j); cbn [andb].
      + rewrite app_nth2; rewrite firstn_length, Nat.min_l by lia; auto.
        destruct (Nat.ltb_spec j (off + length d)).
        * rewrite app_nth1 by (rewrite zip_with_length; auto; lia).
          rewrite zip_with_nth; auto; try lia. rewrite nth_firstn_lt by lia. rewrite nth_skipn_add.
          f_equal. f_equal. lia.
        * rewrite app_nth2; rewrite zip_with_length; auto; try lia. rewrite nth_skipn_add. f_equal. lia.
      + rewrite app_nth1 by (rewrite firstn_length; lia). now rewrite nth_firstn_lt by lia.
  Qed.

  Definition covered (bs : poly) (k : nat) : bool :=
    existsb (fun b => (fst b <=? k) && (k <? fst b + length (snd b))) bs.
  Lemma not_covered : forall bs k, covered bs k = false -> coeff_at bs k = 0.
  Proof.
    induction bs as [|[s d] bs IH]; intros k H; simpl in *; auto.
    apply orb_false_iff in H. destruct H as [-> H]. auto.
  Qed.
  Lemma covered_low : forall bs lo hi k, wf lo hi bs -> (k < lo)%nat -> covered bs k = false.
  Proof.
    induction bs as [|[s d] bs IH]; intros lo hi k H Hk; simpl in *; auto.
    destruct H as (A & B & C & D). rewrite (IH _ _ _ D) by lia. bsplit; try lia; auto.
  Qed.

  Lemma overlay_all_ok : forall g bs cs ce lo (data : list F), wf lo ce bs -> (cs <= lo)%nat ->
    length data = (ce - cs)%nat ->
    exists r, overlay_all g cs bs data = Some r /\ length r = length data /\
      forall j, nth j r 0 = if covered bs (cs + j) then g (nth j data 0) (coeff_at bs (cs + j)) else nth j data 0.
  Proof.
    intros g. induction bs as [|[s d] bs IH]; intros cs ce lo data W Hc Hl.
    - exists data. simpl. auto.
    - simpl in W. destruct W as (A & B & C & D). simpl.
      destruct (Nat.leb_spec cs s); try lia.
      destruct (overlay_ok g (s - cs) d data) as (r1 & E1 & L1 & N1); [lia|]. rewrite E1.
      destruct (IH cs ce (s + length d)%nat r1 D) as (r & E & L & Nr); [lia|congruence|].
      exists r. split; auto. split; [congruence|]. intros j. rewrite Nr, N1.
      replace (s - cs <=? j) with (s <=? cs + j)
        by (destruct (Nat.leb_spec s (cs + j)); destruct (Nat.leb_spec (s - cs) j); auto; lia).
      replace (j <? s - cs + length d) with (cs + j <? s + length d)
        by (destruct (Nat.ltb_spec (cs + j) (s + length d)); destruct (Nat.ltb_spec j (s - cs + length d)); auto; lia).
      destruct (Nat.leb_spec s (cs + j)); destruct (Nat.ltb_spec (cs + j) (s + length d)); cbn [andb orb]; auto.
      rewrite (covered_low _ _ _ _ D) by lia. f_equal. f_equal. lia.
  Qed.

  Definition head_gt (e : nat) (bs : poly) : Prop := match bs with [] => True | (s, _) :: _ => (e < s)%nat end.

  Lemma absorb_ok : forall bs lo hi ce, wf lo hi bs -> (ce <= hi)%nat ->
    let '(t, e, rest) := absorb ce bs in
    bs = t ++ rest /\ (ce <= e)%nat /\ (e <= hi)%nat /\ wf lo e t /\ wf e hi rest /\ head_gt e rest /\
    (t = [] -> e = ce /\ head_gt ce bs).
  Proof.
    induction bs as [|[s d] bs IH]; intros lo hi ce W He; simpl.
    - repeat split; auto.
    - simpl in W. destruct W as (A & B & C & D). destruct (Nat.leb_spec s ce).
      + specialize (IH (s + length d)%nat hi (Nat.max ce (s + length d)) D ltac:(lia)).
        destruct (absorb (Nat.max ce (s + length d)) bs) as [[t e] rest].
        destruct IH as (E & L1 & L2 & W1 & W2 & G & _).
        split; [simpl; congruence|]. split; [lia|]. split; auto. split; [simpl; repeat split; auto; lia|].
        split; auto. split; auto. discriminate.
      + repeat split; simpl; auto. lia.
  Qed.

  Lemma wf_rest : forall A B lo hi, wf (F:=F) lo hi (A ++ B) -> wf lo hi B.
  Proof.
    induction A as [|[s d] A IH]; intros B lo hi H; simpl in *; auto.
    destruct H as (a & b & c & D). eapply wf_weaken; [eapply IH; eauto| |]; lia.
  Qed.
  Lemma wf_head : forall bs lo hi e, wf lo hi bs -> head_gt e bs -> wf (F:=F) e hi bs.
  Proof.
    intros [|[s d] bs] lo hi e H G; simpl in *; auto. destruct H as (a & b & c & D).
    repeat split; auto; lia.
  Qed.
  Lemma cluster_ok : forall fuel (l r : poly) lol lor hi ce, wf lol hi l -> wf lor hi r ->
    (length l + length r < fuel)%nat -> (ce <= hi)%nat -> (lol <= ce)%nat -> (lor <= ce)%nat ->
    let '(lt, rt, e, l', r') := cluster fuel ce l r in
    l = lt ++ l' /\ r = rt ++ r' /\ (ce <= e)%nat /\ (e <= hi)%nat /\
    wf lol e lt /\ wf lor e rt /\ wf e hi l' /\ wf e hi r' /\
    (lt = [] -> rt = [] -> head_gt ce l /\ head_gt ce r).
  Proof.
    induction fuel; intros l r lol lor hi ce Wl Wr Hf He Hlol Hlor; [lia|].
    cbn [cluster]. pose proof (absorb_ok l lol hi ce Wl He) as H1.
    destruct (absorb ce l) as [[t1 e1] l1]. destruct H1 as (E1 & A1 & B1 & W1 & W1' & G1 & N1).
    pose proof (absorb_ok r lor hi e1 Wr B1) as H2.
    destruct (absorb e1 r) as [[t2 e2] r1]. destruct H2 as (E2 & A2 & B2 & W2 & W2' & G2 & N2).
    assert (Hcase : t1 = [] /\ t2 = [] \/ (t1 <> [] \/ t2 <> [])).
    { destruct t1; destruct t2; auto; right; try (left; discriminate); right; discriminate. }
    destruct Hcase as [[-> ->]|Hn].
    - destruct (N1 eq_refl) as [-> G1']. destruct (N2 eq_refl) as [-> G2']. simpl in E1, E2. subst l1 r1.
      repeat split; simpl; auto.
    - assert (Hr : (length l1 + length r1 < fuel)%nat).
      { rewrite E1, E2, !app_length in Hf.
        destruct t1; destruct t2; simpl in Hf; try lia; destruct Hn; congruence. }
      specialize (IHfuel l1 r1 e1 e2 hi e2 W1' W2' Hr B2 ltac:(lia) ltac:(lia)).
      destruct (cluster fuel e2 l1 r1) as [[[[lt rt] e] l'] r'].
      destruct IHfuel as (El & Er & A3 & B3 & V1 & V2 & V3 & V4 & _).
      assert (Goal' : l = (t1 ++ lt) ++ l' /\ r = (t2 ++ rt) ++ r' /\ (ce <= e)%nat /\ (e <= hi)%nat /\
        wf lol e (t1 ++ lt) /\ wf lor e (t2 ++ rt) /\ wf e hi l' /\ wf e hi r' /\
        (t1 ++ lt = [] -> t2 ++ rt = [] -> head_gt ce l /\ head_gt ce r)).
      { split; [rewrite E1, El, app_assoc; auto|]. split; [rewrite E2, Er, app_assoc; auto|].
        split; [lia|]. split; auto.
        split; [eapply wf_app; eauto; lia|]. split; [eapply wf_app; eauto; lia|].
        split; auto. split; auto.
        intros Z1 Z2. apply app_eq_nil in Z1. apply app_eq_nil in Z2. destruct Z1, Z2, Hn; congruence. }
      destruct t1; destruct t2; auto. destruct Hn; congruence.
  Qed.

  Definition good_op (op : F -> F -> F) : Prop := forall x, op x 0 = x.

  Lemma next_start_ok : forall (l r : poly) lo hi cs, wf lo hi l -> wf lo hi r -> next_start l r = Some cs ->
    wf cs hi l /\ wf cs hi r /\ (lo <= cs)%nat /\ (cs < hi)%nat /\ ~ (head_gt cs l /\ head_gt cs r).
  Proof.
    intros l r lo hi cs Wl Wr H. destruct l as [|[s d] l]; destruct r as [|[s' d'] r]; simpl in *; try discriminate;
      injection H as <-; repeat match goal with H : _ /\ _ |- _ => destruct H end;
      repeat match goal with H : ?d <> [] |- _ => destruct d; [congruence|]; clear H; simpl in * end;
      repeat split; auto; try lia; discriminate.
  Qed.

  Lemma combine_loop_ok : forall NC fuel op (l r out : poly) lo hi, good_op op ->
    wf lo hi l -> wf lo hi r -> (length l + length r < fuel)%nat -> (lo <= hi)%nat ->
    exists res, combine_loop NC fuel op l r out = Some (out ++ res) /\ wf lo hi res /\
      forall k, coeff_at res k = op (coeff_at l k) (coeff_at r k).
  Proof.
    intros NC. induction fuel; intros op l r out lo hi Hop Wl Wr Hf Hlh; [lia|].
    cbn [combine_loop]. destruct (next_start l r) as [cs|] eqn:Ens.
    2:{ destruct l as [|[? ?] l]; destruct r as [|[? ?] r]; try discriminate.
        exists []. rewrite app_nil_r. repeat split; intros; cbn; try rewrite Hop; reflexivity. }
    destruct (next_start_ok _ _ _ _ _ Wl Wr Ens) as (Wl' & Wr' & Hlc & Hch & Hne).
    pose proof (cluster_ok (S (length l + length r)) l r cs cs hi cs Wl' Wr' ltac:(lia) ltac:(lia) ltac:(lia) ltac:(lia)) as HC.
    destruct (cluster (S (length l + length r)) cs l r) as [[[[lt rt] ce] l'] r'].
    destruct HC as (El & Er & A & B & W1 & W2 & W3 & W4 & Hn).
    assert (Hlen : (length l' + length r' < fuel)%nat).
    { assert (lt <> [] \/ rt <> []) by (destruct lt; [destruct rt; [exfalso; apply Hne; auto|]|];
        [right; discriminate|left; discriminate]).
      rewrite El, Er, !app_length in Hf. destruct lt; destruct rt; simpl in *; try lia. destruct H; congruence. }
    assert (Hfin : forall seg, wf cs ce seg ->
       (forall k, (k < ce)%nat -> coeff_at seg k = op (coeff_at lt k) (coeff_at rt k)) ->
       exists res, combine_loop NC fuel op l' r' (out ++ seg) = Some (out ++ res) /\ wf lo hi res /\
         forall k, coeff_at res k = op (coeff_at l k) (coeff_at r k)).
    { intros seg Ws Hs. destruct (IHfuel op l' r' (out ++ seg) ce hi Hop W3 W4 Hlen B) as (res & E & W & C).
      exists (seg ++ res). rewrite app_assoc. split; auto. split.
      - eapply wf_weaken; [eapply wf_app; eauto|lia|lia].
      - intros k. rewrite (coeff_app _ _ _ _ _ _ Ws W), El, Er.
        rewrite (coeff_app _ _ _ _ _ _ W1 W3), (coeff_app _ _ _ _ _ _ W2 W4).
        destruct (Nat.ltb_spec k ce); auto. }
    destruct rt as [|rb rt'] eqn:Ert.
    - apply Hfin; [auto|]. intros k _. simpl. now rewrite Hop.
    - rewrite <- Ert in *. clear Ert rb rt'.
      set (data := match lt with [] => _ | _ => _ end).
      assert (Hd : exists d0, data = Some d0 /\ length d0 = (ce - cs)%nat /\
                   forall j, nth j d0 0 = coeff_at lt (cs + j)).
      { assert (Hgen : exists d0, overlay_all (fun _ x => x) cs lt (repeat 0 (ce - cs)) = Some d0 /\
                   length d0 = (ce - cs)%nat /\ forall j, nth j d0 0 = coeff_at lt (cs + j)).
        { destruct (overlay_all_ok (fun _ x => x) lt cs ce cs (repeat 0 (ce - cs)) W1 ltac:(lia)) as (d0 & E & L & Nd).
          { apply repeat_length. }
          exists d0. rewrite repeat_length in L. split; auto. split; auto. intros j. rewrite Nd.
          destruct (covered lt (cs + j)) eqn:Ec; auto. rewrite not_covered by auto. apply nth_repeat. }
        unfold data. destruct lt as [|[s d] [|b2 lt]]; auto.
        destruct (Nat.eqb_spec s cs); auto. destruct (Nat.eqb_spec (length d) (ce - cs)); auto.
        subst s. cbn [andb]. exists d. split; auto. split; auto. intros j.
        rewrite bcoef_single. unfold bcoef. cbn [fst snd].
        destruct (Nat.leb_spec cs (cs + j)); try lia. destruct (Nat.ltb_spec (cs + j) (cs + length d)); cbn [andb].
        - f_equal. lia.
        - now rewrite nth_overflow by lia. }
      destruct Hd as (d0 & -> & L0 & N0).
      destruct (overlay_all_ok op rt cs ce cs d0 W2 ltac:(lia) L0) as (d1 & -> & L1 & N1).
      assert (N2 : forall k, (k < ce)%nat -> bcoef (cs, d1) k = op (coeff_at lt k) (coeff_at rt k)).
      { intros k Hk. unfold bcoef. cbn [fst snd]. destruct (Nat.leb_spec cs k); cbn [andb].
        - destruct (Nat.ltb_spec k (cs + length d1)); try lia. rewrite N1, N0.
          replace (cs + (k - cs))%nat with k by lia. destruct (covered rt k) eqn:Ec; auto.
          rewrite (not_covered rt) by auto. now rewrite Hop.
        - rewrite (coeff_low _ _ _ _ W1), (coeff_low _ _ _ _ W2) by lia. now rewrite Hop. }
      assert (Hce : (cs < ce)%nat).
      { destruct (Nat.eq_dec cs ce); [|lia]. subst ce. exfalso.
        assert (forall bs, wf (F:=F) cs cs bs -> bs = []).
        { intros [|[s d] bs]; auto. simpl. intros (a & b & c & D). destruct d; [congruence|simpl in *; lia]. }
        rewrite (H _ W1), (H _ W2) in Hn. apply Hne. apply Hn; auto. }
      destruct ((cs =? 0)%nat && (ce - cs =? NC)%nat).
      + apply Hfin.
        * simpl. repeat split; auto; try lia. intros ->. simpl in *. lia.
        * intros k Hk. rewrite bcoef_single. auto.
      + rewrite extend_runs_acc. destruct (extend_runs_ok cs d1) as [Wd Cd]. apply Hfin.
        * eapply wf_weaken; eauto. lia.
        * intros k Hk. rewrite Cd. auto.
  Qed.

  Lemma fold_runs_ok : forall (f : list F -> list F) (bs : poly) out lo hi, wf lo hi bs -> (lo <= hi)%nat ->
    (forall d, length (f d) = length d) ->
    exists res, fold_left (fun out b => extend_runs out (fst b) (f (snd b))) bs out = out ++ res /\
      wf lo hi res /\ forall k, coeff_at res k = coeff_at (map (fun b => (fst b, f (snd b))) bs) k.
  Proof.
    intros f. induction bs as [|[s d] bs IH]; intros out lo hi W Hlh Hf.
    - exists []. simpl. rewrite app_nil_r. auto.
    - simpl in W. destruct W as (A & B & C & D). cbn [fold_left fst snd].
      destruct (IH (extend_runs out s (f d)) (s + length d)%nat hi D ltac:(lia) Hf) as (res & E & W & Cf).
      rewrite E, extend_runs_acc. exists (extend_runs [] s (f d) ++ res). rewrite app_assoc. split; auto.
      destruct (extend_runs_ok s (f d)) as [Wd Cd]. rewrite Hf in Wd. split.
      + eapply wf_weaken; [eapply wf_app; eauto; lia|lia|lia].
      + intros k. rewrite (coeff_app _ _ _ _ _ _ Wd W), Cf, Cd. cbn [map coeff_at fst snd]. unfold bcoef.
        cbn [fst snd]. rewrite Hf. destruct (Nat.leb_spec s k); destruct (Nat.ltb_spec k (s + length d)); cbn [andb]; auto.
        assert (Hw : forall bs lo hi, wf lo hi bs -> wf lo hi (map (fun b => (fst b, f (snd b))) bs)).
        { clear - Hf. induction bs as [|[s d] bs IH]; intros lo hi H; simpl in *; auto.
          destruct H as (a & b & c & D). rewrite Hf. repeat split; auto.
          intros E. apply b. apply length_zero_iff_nil. rewrite <- Hf, E. reflexivity. }
        rewrite (coeff_low _ _ _ _ (Hw _ _ _ D)) by lia. reflexivity.
  Qed.

  Lemma zip_zero_map : forall (op : F -> F -> F) d, zip_with op (repeat 0 (length d)) d = map (op 0) d.
  Proof. induction d; simpl; congruence. Qed.

  Lemma coeff_map : forall (g : F -> F) (bs : poly) k, g 0 = 0 ->
    coeff_at (map (fun b => (fst b, map g (snd b))) bs) k = g (coeff_at bs k).
  Proof.
    intros g bs k Hg. induction bs as [|[s d] bs IH]; simpl; auto.
    rewrite map_length. destruct ((s <=? k) && (k <? s + length d)); auto.
    rewrite <- Hg at 1. apply map_nth.
  Qed.
  Lemma wf_map : forall (g : F -> F) (bs : poly) lo hi, wf lo hi bs -> wf lo hi (map (fun b => (fst b, map g (snd b))) bs).
  Proof.
    intros g. induction bs as [|[s d] bs IH]; intros lo hi H; simpl in *; auto.
    destruct H as (a & b & c & D). rewrite map_length. repeat split; auto. destruct d; simpl; congruence.
  Qed.

  Lemma combine_assign_ok : forall NC op (p q : poly), good_op op -> wf 0 NC p -> wf 0 NC q ->
    exists r, combine_assign NC op p q = Some r /\ wf 0 NC r /\
      forall k, coeff_at r k = op (coeff_at p k) (coeff_at q k).
  Proof.
    intros NC op p q Hop Wp Wq. unfold combine_assign. destruct q as [|qb q'] eqn:Eq.
    - exists p. repeat split; auto.
    - rewrite <- Eq in *. clear Eq qb q'. destruct p as [|pb p'] eqn:Ep.
      + set (f := fun d : list F => zip_with op (repeat 0 (length d)) d).
        destruct (fold_runs_ok f q [] 0 NC Wq ltac:(lia)) as (res & E & W & C).
        { intros d. unfold f. apply zip_with_length, repeat_length. }
        exists res. split.
        { apply from_blocks_some. change res with ([] ++ res). rewrite <- E. split; [reflexivity|].
          change (wf 0 NC (fold_left (fun out b => extend_runs out (fst b) (f (snd b))) q [])).
          rewrite E. exact W. }
        split; auto. intros k. rewrite C.
        replace (map (fun b : nat * list F => (fst b, f (snd b))) q) with (map (fun b : nat * list F => (fst b, map (op 0) (snd b))) q).
        * rewrite coeff_map; auto.
        * apply map_ext. intros b. unfold f. now rewrite zip_zero_map.
      + rewrite <- Ep in *. clear Ep pb p'.
        destruct (combine_loop_ok NC (S (length p + length q)) op p q [] 0 NC Hop Wp Wq ltac:(lia) ltac:(lia)) as (res & E & W & C).
        rewrite E. exists res. split; [apply from_blocks_some; auto|]. auto.
  Qed.

  Lemma add_ok : forall NC (p q : poly), wf 0 NC p -> wf 0 NC q ->
    exists r, p_add NC p q = Some r /\ wf 0 NC r /\ forall k, coeff_at r k = coeff_at p k + coeff_at q k.
  Proof. intros. apply combine_assign_ok; auto. intros x. ring. Qed.
  Lemma sub_ok : forall NC (p q : poly), wf 0 NC p -> wf 0 NC q ->
    exists r, p_sub NC p q = Some r /\ wf 0 NC r /\ forall k, coeff_at r k = coeff_at p k - coeff_at q k.
  Proof. intros. apply combine_assign_ok; auto. intros x. ring. Qed.
  Lemma scale_ok : forall lo hi c (p : poly), wf lo hi p ->
    wf lo hi (p_scale c p) /\ forall k, coeff_at (p_scale c p) k = c * coeff_at p k.
  Proof.
    intros lo hi c p H. unfold p_scale. destruct (feqb c 0) eqn:E.
    - apply feqb_true in E. subst. split; [exact I|]. intros. simpl. ring.
    - split; [now apply wf_map|]. intros k. unfold apply_all. rewrite coeff_map; ring.
  Qed.
  Lemma negate_ok : forall lo hi (p : poly), wf lo hi p ->
    wf lo hi (p_negate p) /\ forall k, coeff_at (p_negate p) k = - coeff_at p k.
  Proof.
    intros lo hi p H. split; [now apply wf_map|]. intros k. unfold p_negate, apply_all.
    rewrite coeff_map; ring.
  Qed.

  Lemma fold_from_ok : forall NC (c : F) (ps : list poly) acc, wf 0 NC acc -> Forall (wf 0 NC) ps ->
    exists r, p_fold_from NC acc ps c = Some r /\ wf 0 NC r /\
      forall k, coeff_at r k = fpow c (length ps) * coeff_at acc k
              + fsum (length ps) (fun i => fpow c (length ps - 1 - i) * coeff_at (nth i ps []) k).
  Proof.
    intros NC c. induction ps as [|q ps IH]; intros acc Wa Wp.
    - exists acc. simpl. split; auto. split; auto. intros. ring.
    - inversion Wp; subst. cbn [p_fold_from].
      destruct (scale_ok 0 NC c acc Wa) as [Ws Cs].
      destruct (add_ok NC _ q Ws H1) as (a' & -> & Wa' & Ca').
      destruct (IH a' Wa' H2) as (r & -> & Wr & Cr). exists r. split; auto. split; auto.
      intros k. rewrite Cr, Ca', Cs. cbn [length]. rewrite fsum_S_first. cbn [nth].
      rewrite (fsum_ext F (length ps) (fun i => fpow c (S (length ps) - 1 - S i) * coeff_at (nth i ps []) k)
                 (fun i => fpow c (length ps - 1 - i) * coeff_at (nth i ps []) k)).
      + replace (S (length ps) - 1 - 0)%nat with (length ps) by lia. cbn [fpow]. ring.
      + intros i Hi. replace (S (length ps) - 1 - S i)%nat with (length ps - 1 - i)%nat by lia. reflexivity.
  Qed.
  Lemma fold_ok : forall NC (c : F) (ps : list poly), Forall (wf 0 NC) ps ->
    exists r, p_fold NC ps c = Some r /\ wf 0 NC r /\
      forall k, coeff_at r k = fsum (length ps) (fun i => fpow c (length ps - 1 - i) * coeff_at (nth i ps []) k).
  Proof.
    intros. destruct (fold_from_ok NC c ps [] I H) as (r & E & W & C). exists r. split; auto. split; auto.
    intros k. rewrite C. simpl. ring.
  Qed.

  Lemma wf_snoc : forall bs lo hi s (d : list F), wf lo hi (bs ++ [(s, d)]) ->
    (lo <= s)%nat /\ (s + length d <= hi)%nat /\ d <> [] /\ wf lo s bs.
  Proof.
    induction bs as [|[s' d'] bs IH]; intros lo hi s d H; simpl in H; destruct H as (a & b & c & D).
    - repeat split; auto.
    - destruct (IH _ _ _ _ D) as (E0 & E1 & E2 & E3). repeat split; auto; try lia.
  Qed.

  (** ** eval *)
  Lemma horner_rev : forall (d : list F) z res,
    fold_left (fun r c => r * z + c) (rev d) res = res * fpow z (length d) + peval d z.
  Proof.
    induction d as [|c d IH]; intros z res; simpl; [ring|].
    rewrite fold_left_app, IH. simpl. ring.
  Qed.
  Lemma eval_block : forall s (d : list F) N z, (s + length d <= N)%nat ->
    fsum N (fun k => bcoef (s, d) k * fpow z k) = fpow z s * peval d z.
  Proof.
    intros s d N z H. rewrite peval_fsum, <- fsum_scale.
    replace N with (s + (length d + (N - s - length d)))%nat by lia.
    rewrite fsum_split, fsum_split. rewrite (fsum_zero F s).
    2:{ intros i Hi. unfold bcoef. simpl. bsplit; try lia; ring. }
    rewrite (fsum_zero F (N - s - length d)).
    2:{ intros i Hi. unfold bcoef. simpl. bsplit; try lia; ring. }
    rewrite (fsum_ext F (length d) _ (fun i => fpow z s * (nth i d 0 * fpow z i))); [ring|].
    intros i Hi. unfold bcoef. cbn [fst snd]. bsplit; try lia.
    replace (s + i - s)%nat with i by lia. rewrite fpow_add. ring.
  Qed.
  Lemma eval_loop_ok : forall (rbs : poly) z res ps, wf 0 ps (rev rbs) ->
    p_eval_loop z res ps rbs = res * fpow z ps + fsum ps (fun k => coeff_at (rev rbs) k * fpow z k).
  Proof.
    induction rbs as [|[s d] rbs IH]; intros z res ps W.
    - simpl. rewrite fsum_zero by (intros; simpl; ring). destruct (Nat.ltb_spec 0 ps); [ring|].
      replace ps with 0%nat by lia. simpl. ring.
    - cbn [p_eval_loop]. simpl rev in W.
      destruct (wf_snoc _ _ _ _ _ W) as (_ & Hs & Hd & W2).
      rewrite IH by auto. rewrite horner_rev.
      set (g := if 0 <? ps - (s + length d) then res * fpow z (ps - (s + length d)) else res).
      assert (Hg : g * fpow z (s + length d) = res * fpow z ps).
      { unfold g. destruct (Nat.ltb_spec 0 (ps - (s + length d))).
        - transitivity (res * (fpow z (ps - (s + length d)) * fpow z (s + length d))); [ring|].
          rewrite <- fpow_add. f_equal. f_equal. lia.
        - do 2 f_equal. lia. }
      assert (Hsum : fsum ps (fun k => coeff_at (rev rbs ++ [(s, d)]) k * fpow z k)
                   = fsum s (fun k => coeff_at (rev rbs) k * fpow z k) + fpow z s * peval d z).
      { rewrite <- (eval_block s d ps z Hs).
        rewrite <- (fsum_extend F s ps (fun k => coeff_at (rev rbs) k * fpow z k)).
        2: lia. 2:{ intros i Hi1. rewrite (coeff_high _ _ _ _ W2) by lia. ring. }
        rewrite <- fsum_add. apply fsum_ext. intros k Hk.
        assert (Wd : wf s ps [(s, d)]).
        { simpl. repeat split; auto. }
        rewrite (coeff_app _ _ _ _ _ _ W2 Wd).
        destruct (Nat.ltb_spec k s).
        - unfold bcoef. cbn [fst snd]. bsplit; try lia. ring.
        - rewrite bcoef_single, (coeff_high _ _ _ _ W2) by lia. ring. }
      change (rev ((s, d) :: rbs)) with (rev rbs ++ [(s, d)]). rewrite Hsum. rewrite <- Hg, fpow_add. ring.
  Qed.
  Lemma eval_ok : forall NC (p : poly) z, wf 0 NC p ->
    p_eval NC p z = fsum NC (fun k => coeff_at p k * fpow z k).
  Proof.
    intros. unfold p_eval. rewrite eval_loop_ok; rewrite rev_involutive; auto. ring.
  Qed.

  (** ** dilate *)
  Lemma dilate_data_ok : forall (d : list F) z pw,
    snd (dilate_data z pw d) = pw * fpow z (length d) /\ length (fst (dilate_data z pw d)) = length d /\
    forall j, nth j (fst (dilate_data z pw d)) 0 = nth j d 0 * (pw * fpow z j).
  Proof.
    induction d as [|c d IH]; intros z pw; cbn [dilate_data].
    - cbn [fst snd length fpow]. split; [ring|]. split; auto. intros j. destruct j; simpl; ring.
    - specialize (IH z (pw * z)). destruct (dilate_data z (pw * z) d) as [r pw'].
      cbn [fst snd length fpow] in *. destruct IH as (E & L & Nn). split; [rewrite E; ring|]. split; [congruence|].
      intros [|j]; cbn [nth fpow]; [ring|]. rewrite Nn. ring.
  Qed.
  Lemma dilate_loop_ok : forall (bs : poly) z pw pe hi, wf pe hi bs -> pw = fpow z pe ->
    wf pe hi (dilate_loop z pw pe bs) /\
    forall k, coeff_at (dilate_loop z pw pe bs) k = coeff_at bs k * fpow z k.
  Proof.
    induction bs as [|[s d] bs IH]; intros z pw pe hi W Hp; [simpl; split; auto; intros; ring|].
    simpl in W. destruct W as (A & B & C & D). cbn [dilate_loop].
    set (pw1 := if 0 <? s - pe then _ else pw).
    assert (Hp1 : pw1 = fpow z s).
    { unfold pw1. subst pw. destruct (Nat.ltb_spec 0 (s - pe)).
      - rewrite <- fpow_add. f_equal. lia. - f_equal. lia. }
    destruct (dilate_data_ok d z pw1) as (E & L & Nn).
    destruct (dilate_data z pw1 d) as [d' pw']. cbn [fst snd] in *.
    destruct (IH z pw' (s + length d)%nat hi D) as [W1 C1]; [rewrite E, Hp1, fpow_add; auto|].
    split.
    - cbn [wf]. rewrite L. repeat split; auto. destruct d'; [destruct d; [congruence|discriminate]|discriminate].
    - intros k. cbn [coeff_at]. rewrite L, C1.
      destruct (Nat.leb_spec s k); destruct (Nat.ltb_spec k (s + length d)); cbn [andb]; auto.
      rewrite Nn, Hp1, <- fpow_add. do 2 f_equal. lia.
  Qed.
  Lemma dilate_ok : forall NC (p : poly) z, wf 0 NC p ->
    wf 0 NC (p_dilate z p) /\ forall k, coeff_at (p_dilate z p) k = coeff_at p k * fpow z k.
  Proof. intros. apply dilate_loop_ok; auto. Qed.

  (** ** revdot *)
  Lemma zip_acc_ok : forall (a b : list F) acc, length a = length b ->
    zip_acc acc a b = acc + fsum (length a) (fun i => nth i a 0 * nth i b 0).
  Proof.
    induction a as [|x a IH]; destruct b; intros acc H; try discriminate; cbn [zip_acc length]; [simpl; ring|].
    rewrite IH by auto. rewrite fsum_S_first. cbn [nth]. ring.
  Qed.
  Definition ov (NC : nat) (a b : block) : F := fsum NC (fun k => bcoef a k * bcoef b (NC - 1 - k)).
  Lemma overlap_ok : forall NC res (a b : block), (fst a + length (snd a) <= NC)%nat ->
    (fst b + length (snd b) <= NC)%nat -> snd a <> [] -> snd b <> [] ->
    overlap_sum NC res a b = res + ov NC a b.
  Proof.
    intros NC res [as_ ad] [bs_ bd] Ha Hb Na Nb. cbn [fst snd] in *. unfold overlap_sum, ov.
    assert (0 < length ad)%nat by (destruct ad; simpl; [congruence|lia]).
    assert (0 < length bd)%nat by (destruct bd; simpl; [congruence|lia]).
    replace (NC - 1 + 1)%nat with NC by lia.
    remember (Nat.max as_ (NC - bs_ - length bd)) as lo.
    remember (Nat.min (as_ + length ad) (NC - bs_)) as hi.
    assert (Hz : forall k, (k < NC)%nat -> ~ (lo <= k < hi)%nat -> bcoef (as_, ad) k * bcoef (bs_, bd) (NC - 1 - k) = 0).
    { intros k Hk Hn. unfold bcoef. cbn [fst snd]. bsplit; try ring; lia. }
    destruct (Nat.ltb_spec lo hi).
    - assert (B1 : (as_ <= lo /\ NC - bs_ - length bd <= lo /\ hi <= as_ + length ad /\ hi <= NC - bs_)%nat) by lia.
      clear Heqlo Heqhi. destruct B1 as (B1 & B2 & B3 & B4).
      assert (L1 : length (firstn (hi - lo) (skipn (lo - as_) ad)) = (hi - lo)%nat).
      { rewrite firstn_length, skipn_length. apply Nat.min_l. lia. }
      replace (NC - 1 - lo - bs_ + 1 - (NC - 1 - (hi - 1) - bs_))%nat with (hi - lo)%nat by lia.
      assert (L2 : length (firstn (hi - lo) (skipn (NC - 1 - (hi - 1) - bs_) bd)) = (hi - lo)%nat).
      { rewrite firstn_length, skipn_length. apply Nat.min_l. lia. }
      rewrite zip_acc_ok by (rewrite rev_length; congruence).
      f_equal. rewrite L1.
      replace (fsum NC) with (fsum (F:=F) (lo + ((hi - lo) + (NC - hi)))%nat) by (f_equal; lia).
      rewrite !fsum_split. rewrite (fsum_zero F lo) by (intros; apply Hz; lia).
      rewrite (fsum_zero F (NC - hi)) by (intros; apply Hz; lia).
      match goal with |- ?a = _ => transitivity (0 + (a + 0)); [ring|] end. f_equal. f_equal.
      apply fsum_ext. intros i Hi. unfold bcoef. cbn [fst snd].
      destruct (Nat.leb_spec as_ (lo + i)); try lia. destruct (Nat.ltb_spec (lo + i) (as_ + length ad)); try lia.
      destruct (Nat.leb_spec bs_ (NC - 1 - (lo + i))); try lia.
      destruct (Nat.ltb_spec (NC - 1 - (lo + i)) (bs_ + length bd)); try lia. cbn [andb].
      rewrite nth_firstn_lt by lia. rewrite nth_skipn_add.
      rewrite rev_nth by (rewrite L2; lia). rewrite L2.
      rewrite nth_firstn_lt by lia. rewrite nth_skipn_add. f_equal; f_equal; lia.
    - rewrite fsum_zero; [ring|]. intros; apply Hz; lia.
  Qed.

  (** well formed in reversed order, inside [0,hi) *)
  Fixpoint rwf (hi : nat) (rbs : poly) : Prop :=
    match rbs with
    | [] => True
    | (s, d) :: rbs' => (s + length d <= hi)%nat /\ d <> [] /\ rwf s rbs'
    end.
  Lemma rwf_weaken : forall rbs h h', rwf h rbs -> (h <= h')%nat -> rwf h' rbs.
  Proof. intros [|[s d] rbs] h h' H L; simpl in *; auto. destruct H as (a & b & c). repeat split; auto. lia. Qed.
  Lemma wf_rwf : forall bs lo hi, wf lo hi bs -> rwf hi (rev bs).
  Proof.
    intros bs. induction bs as [|b bs IH] using rev_ind; intros lo hi H; [exact I|].
    rewrite rev_app_distr. destruct b as [s d]. cbn [rev app rwf].
    destruct (wf_snoc _ _ _ _ _ H) as (_ & E1 & E2 & E3). repeat split; auto. eapply IH; eauto.
  Qed.
  Definition ovs (NC : nat) (A B : poly) : F := lsum (map (fun a => lsum (map (ov NC a) B)) A).

  Lemma lsum_map_zero : forall {A} (f : A -> F) l, (forall x, In x l -> f x = 0) -> lsum (map f l) = 0.
  Proof.
    induction l as [|x l IH]; intros H; [reflexivity|]. unfold lsum in *. cbn [map fold_right].
    rewrite H by (left; auto). rewrite IH by (intros; apply H; right; auto). ring.
  Qed.
  Lemma lsum_map_add : forall {A} (f g : A -> F) l, lsum (map (fun x => f x + g x) l) = lsum (map f l) + lsum (map g l).
  Proof.
    induction l as [|x l IH]; unfold lsum in *; cbn [map fold_right]; [ring|]. rewrite IH. ring.
  Qed.
  Lemma ov_disjoint : forall NC s d s' d', (s + length d <= NC - (s' + length d') \/ NC - s' <= s)%nat ->
    (s' + length d' <= NC)%nat -> ov NC (s, d) (s', d') = 0.
  Proof.
    intros NC s d s' d' H H'. unfold ov. apply fsum_zero. intros k Hk. unfold bcoef. cbn [fst snd].
    bsplit; try ring; lia.
  Qed.
  Lemma rwf_in : forall rbs hi s d, rwf hi rbs -> In (s, d) rbs -> (s + length d <= hi)%nat /\ d <> [].
  Proof.
    induction rbs as [|[s' d'] rbs IH]; intros hi s d H Hin; [destruct Hin|]; simpl in *; destruct Hin as [E|Hi].
    - injection E as -> ->. tauto.
    - destruct H as (a & b & c). destruct (IH _ _ _ c Hi). split; auto. lia.
  Qed.
  Lemma wf_in : forall bs lo hi s d, wf (F:=F) lo hi bs -> In (s, d) bs -> (lo <= s)%nat /\ (s + length d <= hi)%nat /\ d <> [].
  Proof.
    induction bs as [|[s' d'] bs IH]; intros lo hi s d H Hin; [destruct Hin|]; simpl in *; destruct Hin as [E|Hi].
    - injection E as -> ->. tauto.
    - destruct H as (a & b & c & D). destruct (IH _ _ _ _ D Hi) as (X & Y & Z). repeat split; auto. lia.
  Qed.
  Lemma revdot_loop_ok : forall NC fuel res (A B : poly) lo hi, wf lo NC A -> rwf hi B -> (hi <= NC)%nat ->
    (length A + length B <= fuel)%nat -> revdot_loop NC fuel res A B = res + ovs NC A B.
  Proof.
    intros NC. induction fuel; intros res A B lo hi WA WB Hh Hf.
    - destruct A; destruct B; simpl in *; try lia. unfold ovs, lsum. simpl. ring.
    - cbn [revdot_loop]. destruct A as [|[s d] A]; [unfold ovs, lsum; simpl; ring|].
      destruct B as [|[s' d'] B].
      { unfold ovs. rewrite lsum_map_zero by (intros; reflexivity). ring. }
      cbn [fst snd]. simpl in WA, WB. destruct WA as (a1 & a2 & a3 & WA). destruct WB as (b1 & b2 & WB).
      rewrite overlap_ok by (simpl; auto; lia).
      assert (0 < length d')%nat by (destruct d'; simpl; [congruence|lia]).
      replace (NC - 1 + 1 - s')%nat with (NC - s')%nat by lia.
      assert (R1 : (s + length d <= NC - s')%nat -> lsum (map (ov NC (s, d)) B) = 0).
      { intros H1. apply lsum_map_zero. intros [s2 d2] Hin. destruct (rwf_in _ _ _ _ WB Hin).
        apply ov_disjoint; lia. }
      assert (R2 : (NC - s' <= s + length d)%nat -> lsum (map (fun a => ov NC a (s', d')) A) = 0).
      { intros H1. apply lsum_map_zero. intros [s2 d2] Hin. destruct (wf_in _ _ _ _ _ WA Hin) as (X & Y & Z).
        apply ov_disjoint; lia. }
      assert (X1 : ovs NC ((s, d) :: A) ((s', d') :: B) =
        ov NC (s, d) (s', d') + lsum (map (ov NC (s, d)) B)
        + lsum (map (fun a => ov NC a (s', d')) A) + ovs NC A B).
      { unfold ovs. rewrite (map_ext (fun a => lsum (map (ov NC a) ((s', d') :: B)))
           (fun a => ov NC a (s', d') + lsum (map (ov NC a) B))).
        - rewrite lsum_map_add. unfold lsum. cbn [map fold_right]. ring.
        - intros a. reflexivity. }
      rewrite X1.
      assert (XA : ovs NC A ((s', d') :: B) = lsum (map (fun a => ov NC a (s', d')) A) + ovs NC A B).
      { unfold ovs. rewrite <- lsum_map_add. f_equal. }
      assert (XB : ovs NC ((s, d) :: A) B = lsum (map (ov NC (s, d)) B) + ovs NC A B).
      { reflexivity. }
      simpl in Hf.
      destruct (Nat.leb_spec (s + length d) (NC - s')); destruct (Nat.leb_spec (NC - s') (s + length d)); try lia.
      + rewrite (IHfuel _ A B _ s' WA WB) by lia. rewrite R1, R2 by lia. ring.
      + rewrite (IHfuel _ A ((s', d') :: B) _ hi WA) by (simpl; repeat split; auto; lia). rewrite XA, R1 by lia. ring.
      + rewrite (IHfuel _ ((s, d) :: A) B lo s') by (simpl; repeat split; auto; lia). rewrite XB, R2 by lia. ring.
  Qed.
  Lemma lsum_perm_rev : forall (l : list F), lsum (rev l) = lsum l.
  Proof.
    induction l as [|x l IH]; [reflexivity|]. simpl rev. rewrite lsum_app, IH. unfold lsum. simpl. ring.
  Qed.
  Lemma fsum_lsum_swap : forall {A} (l : list A) n (f : A -> nat -> F),
    fsum n (fun k => lsum (map (fun a => f a k) l)) = lsum (map (fun a => fsum n (f a)) l).
  Proof.
    induction l as [|x l IH]; intros n f; unfold lsum in *; cbn [map fold_right].
    - apply fsum_zero. auto.
    - rewrite fsum_add, IH. reflexivity.
  Qed.
  Lemma lsum_map_scale_r : forall {A} (l : list A) (f : A -> F) c, lsum (map (fun a => f a * c) l) = lsum (map f l) * c.
  Proof. induction l as [|x l IH]; intros f c; unfold lsum in *; cbn [map fold_right]; [ring|]. rewrite IH. ring. Qed.
  Lemma lsum_map_scale_l : forall {A} (l : list A) (f : A -> F) c, lsum (map (fun a => c * f a) l) = c * lsum (map f l).
  Proof. induction l as [|x l IH]; intros f c; unfold lsum in *; cbn [map fold_right]; [ring|]. rewrite IH. ring. Qed.
  Lemma revdot_ok : forall NC (p q : poly), wf 0 NC p -> wf 0 NC q ->
    p_revdot NC p q = fsum NC (fun k => coeff_at p k * coeff_at q (NC - 1 - k)).
  Proof.
    intros NC p q Wp Wq. unfold p_revdot.
    rewrite (revdot_loop_ok NC _ 0 p (rev q) 0 NC Wp (wf_rwf _ _ _ Wq)) by (try rewrite rev_length; lia).
    rewrite (fsum_ext F NC (fun k => coeff_at p k * coeff_at q (NC - 1 - k))
      (fun k => lsum (map (fun a => lsum (map (fun b => bcoef a k * bcoef b (NC - 1 - k)) (rev q))) p))).
    - rewrite fsum_lsum_swap. unfold ovs.
      rewrite (map_ext (fun a => fsum NC (fun k => lsum (map (fun b => bcoef a k * bcoef b (NC - 1 - k)) (rev q))))
                       (fun a => lsum (map (ov NC a) (rev q)))); [ring|].
      intros a. rewrite fsum_lsum_swap. reflexivity.
    - intros k Hk. rewrite (coeff_lsum _ _ _ _ Wp), (coeff_lsum _ _ _ _ Wq).
      rewrite <- lsum_map_scale_r. f_equal. apply map_ext. intros a.
      rewrite map_rev, lsum_perm_rev, lsum_map_scale_l. reflexivity.
  Qed.
End P.
