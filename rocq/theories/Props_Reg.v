(** Property theorems C21-C22 (crate ragu_circuits: the circuit registry). *)
From Coq Require Import List Arith NArith ZArith Bool Lia.
From Verif Require Import FieldDef GF ModDef ArithModel FFTModel FFTProofs SparseModel SparseSpec CircModel SyModel CircSpec
  RegModel RegSpec RegProofs RegProofs2 Props_Arith Props_Circ.
Import ListNotations.
Open Scope f_scope.

(** ** C21 *)
Theorem C21_registry : forall (F : Field) (T : TwoAdic F) (threads lg : nat) (repr : F -> N)
    (hash : list N -> list N) (to_bytes : F -> list N) (from_uniform : list N -> F) (f_of_u64 : N -> F)
    (b : builder F) (r : registry F) (ss : list (F -> F -> F)),
  (ta_S T <= 32)%nat -> (0 < threads)%nat ->
  finalize F T lg repr hash to_bytes from_uniform f_of_u64 b = Some r ->
  Forall2 (obj_is lg) (rb_internal F b ++ rb_bonding F b ++ rb_steps F b ++ rb_app F b) ss ->
  let k := Nat.log2_up (length ss) in let nc := (4 * 2 ^ lg)%nat in
  (forall w w' : F, w ^ (2 ^ k) = 1 -> w' ^ (2 ^ k) = 1 -> omega_key F repr w = omega_key F repr w' -> w = w') ->
  forall x y, let key_term := rg_key F r * (x * y) ^ (nc - 1) in
  exists P, interpolates T k (map (fun s => s x y) ss) P /\
    (forall P', interpolates T k (map (fun s => s x y) ss) P' -> P' = P) /\
    (forall w, let m := peval P w + key_term in
       reg_wxy F lg repr r w x y = Some m /\
       (exists q, reg_wx F lg repr r w x = Some q /\ wf 0 nc q /\ p_eval nc q y = m) /\
       (exists q, reg_wy F lg repr r w y = Some q /\ wf 0 nc q /\ p_eval nc q x = m) /\
       (exists q, reg_xy F threads lg r x y = Some q /\ wf 0 nc q /\ p_eval nc q w = m)) /\
    (forall i, (i < 2 ^ k)%nat ->
       let m := (match nth_error ss i with Some s => s x y | None => 0 end) + key_term in
       circuit_xy F T lg repr r (N.of_nat i) x y = Some m /\
       exists q, circuit_y F T lg repr r (N.of_nat i) y = Some q /\ wf 0 nc q /\ p_eval nc q x = m).
Proof.
  intros F T threads lg repr hash tb fu fo b r ss S32 TP E O k nc inj x y key_term.
  destruct (finalize_inv F T repr lg hash tb fu fo b r E) as (NB & d & Ed & Er & _).
  fold (reg_order b) in O. pose proof (forall2_length _ _ _ O) as LE.
  assert (Ek : log2_circuits F b = k) by (unfold k, log2_circuits; rewrite <- LE, order_length; reflexivity).
  pose proof (log2_bound F lg b NB) as Kl. pose proof (log2_fits F b) as Fi. rewrite Ek in *.
  destruct (domain_new_inv F T k d Ed) as [K D].
  destruct (interp_exists F T threads lg S32 TP k d D K Kl (reg_order b) ss O Fi x y) as (P & I & Ei & V). destruct I as (LP & I1 & I2).
  assert (ER : r = mk_registry F d (reg_order b) (map (fun c => floor_plan (ob_segs F c)) (reg_order b))
    (lookup_go F repr d k 0 (length (reg_order b)) []) (rg_key F r)) by (rewrite Er at 1; unfold reg_with; rewrite Ek; reflexivity).
  assert (M : forall w, let m := peval P w + key_term in
       reg_wxy F lg repr r w x y = Some m /\
       (exists q, reg_wx F lg repr r w x = Some q /\ wf 0 nc q /\ p_eval nc q y = m) /\
       (exists q, reg_wy F lg repr r w y = Some q /\ wf 0 nc q /\ p_eval nc q x = m) /\
       (exists q, reg_xy F threads lg r x y = Some q /\ wf 0 nc q /\ p_eval nc q w = m)).
  { intros w m. split; [|split; [|split]].
    - rewrite ER. exact (wxy_ok F T repr threads lg S32 TP k d D K Kl inj (reg_order b) ss O Fi (rg_key F r) x y P w LP V).
    - rewrite ER. exact (wx_ok F T repr threads lg S32 TP k d D K Kl inj (reg_order b) ss O Fi (rg_key F r) x y P w LP V).
    - rewrite ER. exact (wy_ok F T repr threads lg S32 TP k d D K Kl inj (reg_order b) ss O Fi (rg_key F r) x y P w LP V).
    - rewrite ER. destruct (xy_ok F T repr threads lg S32 TP k d D K Kl (reg_order b) ss O Fi (rg_key F r) x y P Ei LP) as (q & E1 & E2 & E3 & _).
      exists q. split; [exact E1|]. split; [exact E2|]. apply E3. }
  exists P. split; [split; auto|]. split; [|split; [exact M|]].
  - intros P' I'. apply (interp_unique F T S32 k d _ P' P D K I'). split; auto.
  - intros i I.
    assert (Hv : peval P (omega_j T (N.of_nat i)) = match nth_error ss i with Some s => s x y | None => 0 end).
    { destruct (nth_error ss i) as [s|] eqn:N.
      - assert (L : (i < length ss)%nat) by (apply nth_error_Some; congruence). rewrite I1 by (now rewrite map_length).
        apply nth_error_nth. now rewrite nth_error_map, N.
      - apply nth_error_None in N. apply I2.
        + apply (dom_is_omega F T S32 k d _ D K). eauto.
        + rewrite map_length. intros j J Q. assert (Hk : (2 ^ k <= 2 ^ ta_S T)%nat) by (apply Nat.pow_le_mono_r; lia).
          apply (omega_j_inj F T S32) in Q; lia. }
    destruct (M (omega_j T (N.of_nat i))) as (M1 & _ & M3 & _). rewrite Hv in *. split; [exact M1|exact M3].
Qed.
Print Assumptions C21_registry.

(** finalization succeeds exactly when the circuits fit the rank and the field's
    two-adicity, and the key is the digest of the registry with provisional key 1 *)
Theorem C21_finalize : forall (F : Field) (T : TwoAdic F) (lg : nat) (repr : F -> N)
    (hash : list N -> list N) (to_bytes : F -> list N) (from_uniform : list N -> F) (f_of_u64 : N -> F)
    (b : builder F) (ss : list (F -> F -> F)),
  (ta_S T <= 32)%nat ->
  Forall2 (obj_is lg) (rb_internal F b ++ rb_bonding F b ++ rb_steps F b ++ rb_app F b) ss ->
  let k := Nat.log2_up (length ss) in
  (forall w w' : F, w ^ (2 ^ k) = 1 -> w' ^ (2 ^ k) = 1 -> omega_key F repr w = omega_key F repr w' -> w = w') ->
  (finalize F T lg repr hash to_bytes from_uniform f_of_u64 b <> None <->
     (length ss <= 4 * 2 ^ lg /\ k <= ta_S T)%nat) /\
  forall r, finalize F T lg repr hash to_bytes from_uniform f_of_u64 b = Some r ->
    rg_circuits F r = rb_internal F b ++ rb_bonding F b ++ rb_steps F b ++ rb_app F b /\
    rg_plans F r = map (fun c => floor_plan (ob_segs F c)) (rg_circuits F r) /\
    compute_registry_digest F lg repr hash to_bytes from_uniform f_of_u64
      (mk_registry F (rg_domain F r) (rg_circuits F r) (rg_plans F r) (rg_lookup F r) 1) = Some (rg_key F r).
Proof.
  intros F T lg repr hash tb fu fo b ss S32 O k inj. fold (reg_order b) in O. pose proof (forall2_length _ _ _ O) as LE.
  assert (Ek : log2_circuits F b = k) by (unfold k, log2_circuits; rewrite <- LE, order_length; reflexivity).
  split; [split|].
  - intros E. destruct (finalize F T lg repr hash tb fu fo b) as [r|] eqn:Er; [|congruence].
    destruct (finalize_inv F T repr lg hash tb fu fo b r Er) as (NB & d & Ed & _). rewrite Ek in Ed.
    destruct (domain_new_inv F T k d Ed) as [K _]. rewrite order_length in LE. unfold rk_nc, rk_n in NB. lia.
  - intros [H1 H2]. unfold finalize. rewrite <- order_length, LE. destruct (Nat.ltb_spec (rk_nc lg) (length ss)) as [L|L]; [unfold rk_nc, rk_n in L; lia|].
    rewrite Ek. destruct (domain_new_ok F T k H2) as (d & Ed & D). rewrite Ed. cbn [obind]. fold (reg_order b).
    destruct (digest_some F T repr lg hash tb fu fo S32 b d ss) with (key := 1 : F) as (v & Ev); try (rewrite Ek; auto); auto.
    + rewrite <- Ek. apply log2_bound. rewrite order_length in LE. unfold rk_nc, rk_n. lia.
    + unfold reg_with in Ev. rewrite Ek in Ev. rewrite Ev. discriminate.
  - intros r Er. destruct (finalize_inv F T repr lg hash tb fu fo b r Er) as (NB & d & Ed & E & Eg). fold (reg_order b).
    rewrite E. cbn [reg_with rg_circuits rg_plans rg_domain rg_lookup rg_key]. split; auto.
Qed.
Print Assumptions C21_finalize.

(** the digest is the hash chain over six evaluations of the registry polynomial with
    key 1; registries with equal digests agree at all six points of the chain, which
    are then the same points, unless a collision is at hand *)
Section DigestProofs.
  Context {F : Field}.
  Variable hash : list N -> list N.
  Variable to_bytes : F -> list N.
  Variable from_uniform : list N -> F.
  Lemma state_app es es' : state_after hash to_bytes (es ++ es') = fold_left (next_state hash to_bytes) es' (state_after hash to_bytes es).
  Proof. apply fold_left_app. Qed.
  Lemma state_inj es : forall es', (forall a b, to_bytes a = to_bytes b -> a = b) -> (forall a b, length (to_bytes a) = length (to_bytes b)) ->
    length es = length es' -> state_after hash to_bytes es = state_after hash to_bytes es' -> es = es' \/ hash_collision hash.
  Proof.
    induction es as [|e es IH] using rev_ind; intros es' I L Le H; [destruct es'; [now left|discriminate]|].
    destruct es' as [|e' es' _] using rev_ind; [rewrite app_length in Le; cbn in Le; lia|].
    rewrite !app_length in Le. cbn in Le. rewrite !state_app in H. cbn [fold_left] in H. unfold next_state in H.
    set (a := state_after hash to_bytes es) in *. set (b := state_after hash to_bytes es') in *.
    destruct (list_eq_dec N.eq_dec (a ++ to_bytes e) (b ++ to_bytes e')) as [E|E].
    - assert (E2 : a = b /\ to_bytes e = to_bytes e').
      { apply (f_equal (@rev N)) in E. rewrite !rev_app_distr in E. specialize (L e e').
        assert (L2 : length (rev (to_bytes e)) = length (rev (to_bytes e'))) by (now rewrite !rev_length).
        assert (K : forall x x' y y' : list N, length x = length x' -> x ++ y = x' ++ y' -> x = x' /\ y = y').
        { induction x as [|u x IHx]; intros [|u' x'] y y' Hl He; try discriminate; [now split|]. cbn in He, Hl. injection He as -> He. injection Hl as Hl.
          destruct (IHx x' y y' Hl He) as [-> ->]. now split. }
        destruct (K _ _ _ _ L2 E) as [K1 K2]. apply (f_equal (@rev N)) in K1, K2. rewrite !rev_involutive in K1, K2. now split. }
      destruct E2 as [Ea Eb]. apply I in Eb. subst e'. destruct (IH es' I L ltac:(lia) Ea) as [->|C]; [now left|now right].
    - right. exists (a ++ to_bytes e), (b ++ to_bytes e'). split; [exact E|]. exact H.
  Qed.
  Lemma derive_inj a b i : derive hash from_uniform a i = derive hash from_uniform b i -> a = b \/ hash_collision hash \/ uniform_collision hash from_uniform.
  Proof.
    unfold derive. intros E. destruct (list_eq_dec N.eq_dec a b) as [->|Hn]; [now left|]. right.
    destruct (list_eq_dec N.eq_dec (hash (a ++ [i])) (hash (b ++ [i]))) as [Eh|Eh].
    - left. exists (a ++ [i]), (b ++ [i]). split; [|exact Eh]. intros X. apply app_inv_tail in X. contradiction.
    - right. exists (a ++ [i]), (b ++ [i]). now split.
  Qed.
  (** the recursion of the code as a run *)
  Lemma go_run (lg : nat) (repr : F -> N) (r : registry F) (m : F -> F -> F -> F) : (forall w x y, reg_wxy F lg repr r w x y = Some (m w x y)) ->
    forall fuel run st w x y key, st = state_after hash to_bytes (map snd run) ->
      digest_go F lg repr hash to_bytes from_uniform r fuel st w x y = Some key ->
      digest_run hash to_bytes from_uniform m (match run with [] => w | (a, _, _, _) :: _ => a end) (match run with [] => x | (_, a, _, _) :: _ => a end)
        (match run with [] => y | (_, _, a, _) :: _ => a end) run ->
      (run <> [] -> (w, x, y) = (derive hash from_uniform st 0, derive hash from_uniform st 1, derive hash from_uniform st 2)) ->
      exists run', length run' = fuel /\ key = digest_key hash to_bytes from_uniform (run ++ run') /\
        digest_run hash to_bytes from_uniform m (match run with [] => w | (a, _, _, _) :: _ => a end) (match run with [] => x | (_, a, _, _) :: _ => a end)
        (match run with [] => y | (_, _, a, _) :: _ => a end) (run ++ run').
  Proof.
    intros Hm fuel. induction fuel as [|fuel IH]; intros run st w x y key Hst Hgo Hrun Hp; cbn [digest_go] in Hgo.
    - exists []. rewrite app_nil_r. split; [reflexivity|]. split; [|exact Hrun]. injection Hgo as <-. unfold digest_key. rewrite <- Hst. reflexivity.
    - rewrite Hm in Hgo. cbn [obind] in Hgo. set (e := m w x y) in *.
      set (w0 := match run with [] => w | (a, _, _, _) :: _ => a end) in *.
      set (x0 := match run with [] => x | (_, a, _, _) :: _ => a end) in *.
      set (y0 := match run with [] => y | (_, _, a, _) :: _ => a end) in *.
      assert (Hd : digest_run hash to_bytes from_uniform m w0 x0 y0 (run ++ [(w, x, y, e)])).
      { intros i w' x' y' e' Hi. destruct (Nat.lt_ge_cases i (length run)) as [Li|Li].
        - rewrite nth_error_app1 in Hi by exact Li. destruct (Hrun i w' x' y' e' Hi) as [He Hpt]. split; [exact He|].
          rewrite firstn_app. replace (i - length run)%nat with 0%nat by lia. cbn [firstn]. rewrite app_nil_r. exact Hpt.
        - rewrite nth_error_app2 in Hi by exact Li. destruct (i - length run)%nat as [|j] eqn:Ej; [|destruct j; discriminate].
          injection Hi as <- <- <- <-. split; [reflexivity|]. assert (i = length run) by lia. subst i.
          rewrite firstn_app, firstn_all, Nat.sub_diag. cbn [firstn]. rewrite app_nil_r, <- Hst.
          destruct run as [|q run]; [reflexivity|]. cbn [length]. apply Hp. discriminate. }
      assert (H0 : forall T (f : F * F * F * F -> T) (d : T), f (match run with [] => (w, x, y, e) | q :: _ => q end) = match run ++ [(w, x, y, e)] with [] => d | q :: _ => f q end)
        by (intros; destruct run; reflexivity).
      specialize (IH (run ++ [(w, x, y, e)]) (hash (st ++ to_bytes e)) (field_from_hash F hash from_uniform (hash (st ++ to_bytes e)) 0)
        (field_from_hash F hash from_uniform (hash (st ++ to_bytes e)) 1) (field_from_hash F hash from_uniform (hash (st ++ to_bytes e)) 2) key).
      destruct IH as (run' & Lr & Hk & Hr).
      + rewrite map_app, state_app. cbn [map fold_left snd]. now rewrite <- Hst.
      + exact Hgo.
      + destruct run as [|[[[? ?] ?] ?] run]; exact Hd.
      + intros _. reflexivity.
      + exists ((w, x, y, e) :: run'). rewrite <- app_assoc in Hk, Hr. cbn [app] in Hk, Hr. split; [cbn; lia|]. split; [exact Hk|].
        destruct run as [|[[[? ?] ?] ?] run]; exact Hr.
  Qed.
End DigestProofs.

Theorem C21_digest : forall (F : Field) (T : TwoAdic F) (lg : nat) (repr : F -> N)
    (hash : list N -> list N) (to_bytes : F -> list N) (from_uniform : list N -> F) (f_of_u64 : N -> F)
    (b : builder F) (r : registry F) (ss : list (F -> F -> F)),
  (ta_S T <= 32)%nat ->
  finalize F T lg repr hash to_bytes from_uniform f_of_u64 b = Some r ->
  Forall2 (obj_is lg) (rb_internal F b ++ rb_bonding F b ++ rb_steps F b ++ rb_app F b) ss ->
  let k := Nat.log2_up (length ss) in let nc := (4 * 2 ^ lg)%nat in
  (forall w w' : F, w ^ (2 ^ k) = 1 -> w' ^ (2 ^ k) = 1 -> omega_key F repr w = omega_key F repr w' -> w = w') ->
  exists m run, (forall x y, exists P, interpolates T k (map (fun s => s x y) ss) P /\ forall w, m w x y = peval P w + (x * y) ^ (nc - 1)) /\
    length run = 6%nat /\ digest_run hash to_bytes from_uniform m (f_of_u64 2%N) (f_of_u64 3%N) (f_of_u64 5%N) run /\
    rg_key F r = digest_key hash to_bytes from_uniform run.
Proof.
  intros F T lg repr hash tb fu fo b r ss S32 E O k nc inj. fold (reg_order b) in O.
  destruct (finalize_inv F T repr lg hash tb fu fo b r E) as (NB & d & Ed & Er & Eg).
  pose proof (forall2_length _ _ _ O) as LE.
  assert (Ek : log2_circuits F b = k) by (unfold k, log2_circuits; rewrite <- LE, order_length; reflexivity).
  pose proof (log2_bound F lg b NB) as Kl. pose proof (log2_fits F b) as Fi. rewrite Ek in *.
  destruct (domain_new_inv F T k d Ed) as [K D].
  set (r1 := reg_with F repr b d f1) in *.
  set (m := fun w x y => match reg_wxy F lg repr r1 w x y with Some e => e | None => 0 end).
  assert (Hm : forall x y, exists P, interpolates T k (map (fun s => s x y) ss) P /\ forall w, reg_wxy F lg repr r1 w x y = Some (peval P w + (x * y) ^ (nc - 1))).
  { intros x y. destruct (interp_exists F T 1 lg S32 (Nat.lt_0_succ 0) k d D K Kl (reg_order b) ss O Fi x y) as (P & I & _ & V).
    exists P. split; [exact I|]. intros w. unfold r1, reg_with. rewrite Ek.
    rewrite (wxy_ok F T repr 1 lg S32 (Nat.lt_0_succ 0) k d D K Kl inj (reg_order b) ss O Fi 1 x y P w (proj1 I) V).
    unfold m_value. f_equal. apply (f_equal (fadd (peval P w))). apply (Ring_theory.Rmul_1_l (Field_theory.F_R (f_theory F))). }
  destruct (go_run hash tb fu lg repr r1 m) with (fuel := 6%nat) (run := @nil (F * F * F * F)) (st := @nil N) (w := fo 2%N) (x := fo 3%N) (y := fo 5%N) (key := rg_key F r)
    as (run & L & Hk & Hr).
  - intros w x y. destruct (Hm x y) as (P & _ & H). unfold m. rewrite H. reflexivity.
  - reflexivity.
  - exact Eg.
  - intros i ? ? ? ? H. destruct i; discriminate.
  - congruence.
  - exists m, run. split; [|auto]. intros x y. destruct (Hm x y) as (P & I & H). exists P. split; [exact I|]. intros w. unfold m. now rewrite H.
Qed.
Print Assumptions C21_digest.

Theorem C21_binding : forall (F : Field) (hash : list N -> list N) (to_bytes : F -> list N) (from_uniform : list N -> F)
    (m m' : F -> F -> F -> F) w0 x0 y0 run run',
  (forall a b, to_bytes a = to_bytes b -> a = b) -> (forall a b, length (to_bytes a) = length (to_bytes b)) ->
  digest_run hash to_bytes from_uniform m w0 x0 y0 run -> digest_run hash to_bytes from_uniform m' w0 x0 y0 run' -> length run = length run' ->
  digest_key hash to_bytes from_uniform run = digest_key hash to_bytes from_uniform run' ->
  (run = run' /\ forall w x y e, In (w, x, y, e) run -> m w x y = m' w x y) \/
  hash_collision hash \/ uniform_collision hash from_uniform.
Proof.
  intros F hash tb fu m m' w0 x0 y0 run run' I L R R' Le E. unfold digest_key in E.
  destruct (derive_inj hash fu _ _ _ E) as [E1|C]; [|now right].
  destruct (list_eq_dec N.eq_dec (state_after hash tb (map snd run)) (state_after hash tb (map snd run'))) as [E2|E2].
  2:{ right. left. eexists. eexists. split; [exact E2|exact E1]. }
  destruct (state_inj hash tb (map snd run) (map snd run') I L ltac:(now rewrite !map_length) E2) as [E3|C]; [|right; now left]. left.
  assert (EQ : run = run').
  { assert (X : forall i, nth_error run i = nth_error run' i).
    { intros i. destruct (nth_error run i) as [[[[w x] y] e]|] eqn:N1; destruct (nth_error run' i) as [[[[w' x'] y'] e']|] eqn:N2; auto.
      - destruct (R _ _ _ _ _ N1) as [_ P1], (R' _ _ _ _ _ N2) as [_ P2].
        assert (e = e'). { pose proof (f_equal (fun l => nth_error l i) E3) as E4. cbn beta in E4. rewrite !nth_error_map, N1, N2 in E4. cbn in E4. congruence. }
        rewrite <- !firstn_map, E3 in P1. rewrite <- firstn_map in P2. cbv zeta in P1, P2. congruence.
      - exfalso. assert (i < length run)%nat by (apply nth_error_Some; congruence). apply nth_error_None in N2. lia.
      - exfalso. assert (i < length run')%nat by (apply nth_error_Some; congruence). apply nth_error_None in N1. lia. }
    clear -X. revert run' X. induction run as [|a l IH]; intros [|b l'] X; auto.
    - specialize (X 0%nat). discriminate.
    - specialize (X 0%nat). discriminate.
    - pose proof (X 0%nat) as X0. injection X0 as ->. f_equal. apply IH. intros i. apply (X (S i)). }
  split; [exact EQ|]. intros w x y e Hin. destruct (In_nth_error _ _ Hin) as (i & N1).
  destruct (R _ _ _ _ _ N1) as [-> _]. rewrite EQ in N1. destruct (R' _ _ _ _ _ N1) as [E4 _]. exact E4.
Qed.
Print Assumptions C21_binding.

(** circuits defined by programs meet the objects' hypothesis of C21 *)
Theorem C21_objects : forall (F : Field) (x0 x1 x2 x3 yc onec hc : F) (lg : nat) (body : prog F) (outs : list wref),
  let p := orchestrate body outs in
  (prog_cobj x0 x1 x2 x3 yc onec hc lg body outs <> None <->
     (list_sum (map fst (sizes p)) <= 2 ^ lg)%nat /\ (list_sum (map snd (sizes p)) < 4 * 2 ^ lg)%nat) /\
  forall o, prog_cobj x0 x1 x2 x3 yc onec hc lg body outs = Some o ->
    owned p [] <> None -> hides_d body = true -> forallb ref_hides outs = true ->
    obj_is lg o (s_spec (2 ^ lg) p).
Proof.
  intros F x0 x1 x2 x3 yc onec hc lg body outs p. split.
  - destruct (SProofs.object_ok F x0 x1 x2 x3 yc onec hc (2 ^ lg) (4 * 2 ^ lg) body outs) as [A _]. fold p in A.
    unfold prog_cobj, rk_nc, rk_n. rewrite <- A. destruct (circuit_object x0 x1 x2 x3 yc onec hc (2 ^ lg) (4 * 2 ^ lg) body outs); cbn [obind]; split; congruence.
  - intros o. apply prog_cobj_is.
Qed.
Print Assumptions C21_objects.

(** ** C22 *)
Theorem C22_identifiers : forall (F : Field) (T : TwoAdic F) (lg : nat) (repr : F -> N)
    (hash : list N -> list N) (to_bytes : F -> list N) (from_uniform : list N -> F) (f_of_u64 : N -> F)
    (b : builder F) (r : registry F),
  (ta_S T <= 32)%nat ->
  finalize F T lg repr hash to_bytes from_uniform f_of_u64 b = Some r ->
  let cs := rb_internal F b ++ rb_bonding F b ++ rb_steps F b ++ rb_app F b in
  let k := Nat.log2_up (length cs) in
  (forall w w' : F, w ^ (2 ^ k) = 1 -> w' ^ (2 ^ k) = 1 -> omega_key F repr w = omega_key F repr w' -> w = w') ->
  (* the identifier of an index is the same point of every domain that has it *)
  (forall k' d' i, domain_new T k' = Some d' -> (i < 2 ^ k')%nat ->
     omega_j T (N.of_nat i) = d_omega d' ^ (N.to_nat (bitreverse (N.of_nat i) (N.of_nat k')))) /\
  (* distinct indices, distinct identifiers *)
  (forall i j, (i < 2 ^ ta_S T)%nat -> (j < 2 ^ ta_S T)%nat -> omega_j T (N.of_nat i) = omega_j T (N.of_nat j) -> i = j) /\
  (* the in-domain check passes for exactly the identifiers of the registry *)
  (forall i, (i < 2 ^ ta_S T)%nat -> (circuit_in_domain F T r (N.of_nat i) = true <-> (i < 2 ^ k)%nat)) /\
  (forall w, d_contains (rg_domain F r) w = true <-> exists i, (i < 2 ^ k)%nat /\ w = omega_j T (N.of_nat i)) /\
  (* the lookup recovers the index of a registered circuit and nothing else in the domain *)
  (forall i, (i < 2 ^ k)%nat ->
     lookup_key (rg_lookup F r) (omega_key F repr (omega_j T (N.of_nat i))) = if (i <? length cs)%nat then Some i else None).
Proof.
  intros F T lg repr hash tb fu fo b r S32 E cs k inj.
  destruct (finalize_inv F T repr lg hash tb fu fo b r E) as (NB & d & Ed & Er & _).
  assert (Ek : log2_circuits F b = k) by (unfold k, cs, log2_circuits; fold (reg_order b); rewrite order_length; reflexivity).
  pose proof (log2_fits F b) as Fi. rewrite Ek in *. destruct (domain_new_inv F T k d Ed) as [K D].
  assert (Rd : rg_domain F r = d) by (rewrite Er; reflexivity).
  split; [|split; [|split; [|split]]].
  - intros k' d' i Hd Hi. destruct (domain_new_inv F T k' d' Hd) as [K' D']. exact (omega_j_dom F T S32 k' d' i D' K' Hi).
  - intros i j I J. apply (omega_j_inj F T S32); auto.
  - intros i I. unfold circuit_in_domain. rewrite Rd. apply (omega_j_in F T S32 k d i D K I).
  - intros w. rewrite Rd. rewrite <- (dom_is_omega F T S32 k d w D K). unfold d_contains. rewrite (do_n _ _ _ _ D). apply feqb_true.
  - intros i I. replace (rg_lookup F r) with (lookup_go F repr d k 0 (length cs) []) by (rewrite Er; cbn [rg_lookup reg_with]; rewrite Ek; reflexivity).
    rewrite (lookup_ok F T repr S32 k d D K inj (length cs) 0 i); auto.
Qed.
Print Assumptions C22_identifiers.

(** Examples: a registry of two circuits and one internal circuit at rank n = 8 over F97 *)
Definition ex_obj (known : bool) : option (cobj F97) :=
  prog_cobj (l97 11) (l97 13) (l97 17) (l97 19) (l97 23) (l97 29) (l97 31) 3 (ex_body known) ex_outs.
Definition ex_body2 : prog F97 := PMul (l97 2) (l97 3) (l97 6) PEnd.
Definition ex_obj2 : option (cobj F97) :=
  prog_cobj (l97 11) (l97 13) (l97 17) (l97 19) (l97 23) (l97 29) (l97 31) 3 ex_body2 [WVar 2].
Definition ex_builder : option (builder F97) :=
  obind (ex_obj true) (fun a => obind ex_obj2 (fun c =>
  Some (register_circuit F97 c (register_internal_circuit F97 c (register_circuit F97 a (rb_new F97)))))).
Definition ex_hash (l : list N) : list N := [(fold_left (fun a x => a * 31 + x + 7) l 5) mod 1009]%N.
Definition ex_from (l : list N) : F97 := l97 (Z.of_N (hd 0%N l)).
Definition ex_repr (a : F97) : N := Z.to_N (v97 a).
Definition ex_registry : option (registry F97) :=
  obind ex_builder (finalize F97 TA97 3 ex_repr ex_hash (fun a => [ex_repr a]) ex_from (fun n => l97 (Z.of_N n))).

Section KeyInj.
Add Field FFrk : (f_theory F97).
Lemma ex_key_inj : forall w w' : F97, omega_key F97 ex_repr w = omega_key F97 ex_repr w' -> w = w'.
Proof.
  intros w w' E. unfold omega_key, ex_repr in E. cbv zeta in E.
  assert (B : forall a : F97, (0 <= v97 a < 97)%Z).
  { intros a. apply (val_range 97). }
  rewrite !N.mod_small in E by (match goal with |- (Z.to_N (v97 ?a) < _)%N => pose proof (B a); lia end).
  assert (Q : v97 (w + w + (w + w) + w) = v97 (w' + w' + (w' + w') + w')).
  { pose proof (B (w + w + (w + w) + w)). pose proof (B (w' + w' + (w' + w') + w')). lia. }
  apply gf_ext in Q.
  assert (M : forall a : F97, l97 39 * (a + a + (a + a) + a) = a).
  { intros a. transitivity (l97 39 * (1 + 1 + (1 + 1) + 1) * a); [ring|].
    replace (l97 39 * (1 + 1 + (1 + 1) + 1)) with (1 : F97) by (apply gf_ext; vm_compute; reflexivity). ring. }
  rewrite <- (M w), <- (M w'), Q. reflexivity.
Qed.

End KeyInj.
Definition is_some {A} (x : option A) : bool := match x with Some _ => true | None => false end.
Lemma ex_objs : match ex_builder, ex_obj true, ex_obj2 with
  | Some b, Some a, Some c => rb_internal F97 b ++ rb_bonding F97 b ++ rb_steps F97 b ++ rb_app F97 b = [c; a; c]
  | _, _, _ => False end.
Proof.
  assert (A : is_some (ex_obj true) = true) by (vm_compute; reflexivity).
  assert (C : is_some ex_obj2 = true) by (vm_compute; reflexivity).
  unfold ex_builder. destruct (ex_obj true) as [a|]; [|discriminate A]. destruct ex_obj2 as [c|]; [reflexivity|discriminate C].
Qed.
Lemma ex_obj_is a : ex_obj true = Some a -> obj_is 3 a (s_spec (2 ^ 3) ex_prog).
Proof.
  unfold ex_obj. intros A. destruct ex_prog_meets as (O & H & R & _).
  exact (prog_cobj_is F97 (l97 11) (l97 13) (l97 17) (l97 19) (l97 23) (l97 29) (l97 31) 3 (ex_body true) ex_outs a A O H R).
Qed.
Lemma ex_obj2_is a : ex_obj2 = Some a -> obj_is 3 a (s_spec (2 ^ 3) (orchestrate ex_body2 [WVar 2])).
Proof.
  unfold ex_obj2. intros A.
  assert (O : owned (orchestrate ex_body2 [WVar 2]) [] <> None) by (vm_compute; discriminate).
  exact (prog_cobj_is F97 (l97 11) (l97 13) (l97 17) (l97 19) (l97 23) (l97 29) (l97 31) 3 ex_body2 [WVar 2] a A O eq_refl eq_refl).
Qed.
(** the hypotheses of C21 and C22 are met by this registry, and the model's
    restrictions take the values the theorem predicts *)
Example C21_ex : match ex_builder, ex_registry with
  | Some b, Some r =>
      Forall2 (obj_is 3) (rb_internal F97 b ++ rb_bonding F97 b ++ rb_steps F97 b ++ rb_app F97 b)
        [s_spec (2 ^ 3) (orchestrate ex_body2 [WVar 2]); s_spec (2 ^ 3) ex_prog; s_spec (2 ^ 3) (orchestrate ex_body2 [WVar 2])]
  | _, _ => False end.
Proof.
  pose proof ex_objs as H. assert (E : is_some ex_registry = true) by (vm_compute; reflexivity).
  destruct ex_builder as [b|]; [|destruct H]. destruct ex_registry; [|discriminate E].
  destruct (ex_obj true) as [a|] eqn:A; [|destruct H]. destruct ex_obj2 as [c|] eqn:C; [|destruct H]. rewrite H.
  pose proof (ex_obj2_is c C) as Hc.
  constructor; [exact Hc|]. constructor; [exact (ex_obj_is a A)|constructor; [exact Hc|constructor]].
Qed.
Example C21_ex_values : match ex_registry with
  | Some r =>
      let w := l97 5 in let x := l97 6 in let y := l97 7 in
      option_map v97 (reg_wxy F97 3 ex_repr r w x y) = option_map (fun q => v97 (p_eval 32 q y)) (reg_wx F97 3 ex_repr r w x) /\
      option_map v97 (reg_wxy F97 3 ex_repr r w x y) = option_map (fun q => v97 (p_eval 32 q w)) (reg_xy F97 4 3 r x y) /\
      option_map v97 (circuit_xy F97 TA97 3 ex_repr r 1 x y)
        = Some (v97 (s_spec 8 ex_prog x y + rg_key F97 r * (x * y) ^ 31)) /\
      Z.eqb (v97 (rg_key F97 r)) 0 = false
  | None => False end.
Proof. vm_compute. repeat split; reflexivity. Qed.
Example C22_ex : match ex_registry with
  | Some r => map (fun i => lookup_key (rg_lookup F97 r) (omega_key F97 ex_repr (omega_j TA97 i))) [0; 1; 2; 3]%N = [Some 0; Some 1; Some 2; None]%nat
      /\ map (circuit_in_domain F97 TA97 r) [0; 1; 2; 3; 4; 31]%N = [true; true; true; true; false; false]
      /\ map v97 (map (omega_j TA97) [0; 1; 2; 3]%N) = [1; 96; 22; 75]%Z
  | None => False end.
Proof. vm_compute. repeat split. Qed.
(** the digest of this registry is a run of six evaluations, and the encoding used
    meets the hypotheses of C21_binding *)
Definition ex_fin (b : builder F97) : option (registry F97) :=
  finalize F97 TA97 3 ex_repr ex_hash (fun a => [ex_repr a]) ex_from (fun n => l97 (Z.of_N n)) b.
Lemma ex_forall b : ex_builder = Some b ->
  Forall2 (obj_is 3) (rb_internal F97 b ++ rb_bonding F97 b ++ rb_steps F97 b ++ rb_app F97 b)
    [s_spec (2 ^ 3) (orchestrate ex_body2 [WVar 2]); s_spec (2 ^ 3) ex_prog; s_spec (2 ^ 3) (orchestrate ex_body2 [WVar 2])].
Proof.
  intros B. pose proof ex_objs as H. rewrite B in H.
  destruct (ex_obj true) as [a|] eqn:A; [|destruct H]. destruct ex_obj2 as [c|] eqn:C; [|destruct H]. rewrite H.
  pose proof (ex_obj2_is c C) as Hc.
  constructor; [exact Hc|]. constructor; [exact (ex_obj_is a A)|constructor; [exact Hc|constructor]].
Qed.
Example C21_ex_digest : (forall a b : F97, [ex_repr a] = [ex_repr b] -> a = b) /\ (forall a b : F97, length [ex_repr a] = length [ex_repr b]) /\
  exists b r m run, ex_builder = Some b /\ ex_fin b = Some r /\ length run = 6%nat /\
      digest_run ex_hash (fun a => [ex_repr a]) ex_from m (l97 2) (l97 3) (l97 5) run /\ rg_key F97 r = digest_key ex_hash (fun a => [ex_repr a]) ex_from run.
Proof.
  split; [|split; [reflexivity|]].
  - intros a b H. injection H as H. apply gf_ext. unfold ex_repr in H. pose proof (val_range 97 a). pose proof (val_range 97 b).
    unfold v97 in H. lia.
  - assert (E : forall b r, ex_builder = Some b -> ex_fin b = Some r -> exists m run, length run = 6%nat /\
      digest_run ex_hash (fun a => [ex_repr a]) ex_from m (l97 2) (l97 3) (l97 5) run /\ rg_key F97 r = digest_key ex_hash (fun a => [ex_repr a]) ex_from run).
    { intros b r B R.
      destruct (C21_digest F97 TA97 3 ex_repr ex_hash (fun a => [ex_repr a]) ex_from (fun n => l97 (Z.of_N n)) b r _ ltac:(cbn; lia) R (ex_forall b B)) as (m & run & _ & L & D & K).
      + intros w w' _ _. apply ex_key_inj.
      + exists m, run. auto. }
    assert (Hb : match ex_builder with Some b => is_some (ex_fin b) | None => false end = true) by (vm_compute; reflexivity).
    revert E Hb. generalize ex_fin. generalize ex_builder. intros [b|] f E Hb; [|discriminate].
    destruct (f b) as [r|] eqn:R; [|discriminate].
    destruct (E b r eq_refl R) as (m & run & H). exists b, r, m, run. auto.
Qed.
