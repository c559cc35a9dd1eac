(** Stage polynomials, stage wires and the sum of stages. *)
From Coq Require Import List Arith NArith Bool Lia Permutation Field.
From Verif Require Import FieldDef ModDef ArithModel ArithProofs FFTModel FFTProofs SparseModel SparseSpec SparseProofs SparseProofs2
  CircModel SyModel TraceModel CircSpec CircProofs CircProofs2 TraceProofs RegModel RegSpec StageModel StageSpec StageProofs.
Import ListNotations.
Local Open Scope nat_scope.

(** ** layout *)
Lemma start_cons v vals i : stage_start (v :: vals) (S i) = (v + 1) / 2 + stage_start vals i.
Proof. unfold stage_start. cbn [firstn map]. change (list_sum (?a :: ?l)) with (a + list_sum l). lia. Qed.
Lemma start_pos vals i : 1 <= stage_start vals i.
Proof. unfold stage_start. lia. Qed.
Lemma start_S vals i v : nth_error vals i = Some v -> stage_start vals (S i) = stage_start vals i + (v + 1) / 2.
Proof.
  revert i. induction vals as [|w vals IH]; intros [|i] H; try discriminate.
  - injection H as ->. rewrite start_cons. unfold stage_start. cbn. lia.
  - rewrite !start_cons. rewrite (IH i H). lia.
Qed.
Lemma start_mono vals i j : i <= j -> stage_start vals i <= stage_start vals j.
Proof.
  revert i j. induction vals as [|w vals IH]; intros i j H.
  - unfold stage_start. rewrite !firstn_nil. lia.
  - destruct i, j; try lia.
    + unfold stage_start at 1. cbn [firstn map]. change (list_sum []) with 0. pose proof (start_pos (w :: vals) (S j)). lia.
    + rewrite !start_cons. specialize (IH i j). lia.
Qed.
Lemma stage_disjoint vals i j g : in_stage vals i g -> in_stage vals j g -> i = j.
Proof.
  intros (v & Hv & Hg) (w & Hw & Hg'). destruct (Nat.lt_trichotomy i j) as [L|[L|L]]; auto; exfalso.
  - pose proof (start_S vals i v Hv). pose proof (start_mono vals (S i) j L). lia.
  - pose proof (start_S vals j w Hw). pose proof (start_mono vals (S j) i L). lia.
Qed.
Lemma stage_cover vals g : (exists i, in_stage vals i g) <-> 1 <= g < stage_start vals (length vals).
Proof.
  split.
  - intros (i & v & Hv & Hg). pose proof (start_pos vals i). pose proof (start_S vals i v Hv).
    assert (i < length vals) by (apply nth_error_Some; congruence). pose proof (start_mono vals (S i) (length vals) ltac:(lia)). lia.
  - revert g. induction vals as [|v vals IH]; intros g [G1 G2].
    + unfold stage_start in G2. cbn in G2. lia.
    + cbn [length] in G2. rewrite start_cons in G2. destruct (Nat.lt_ge_cases g (1 + (v + 1) / 2)) as [L|L].
      * exists 0, v. split; [reflexivity|]. change (stage_start (v :: vals) 0) with 1. lia.
      * destruct (IH (g - (v + 1) / 2)) as (i & w & Hw & Hg); [lia|]. exists (S i), w. split; [exact Hw|]. rewrite start_cons. lia.
Qed.

Lemma pad_loop_ok : forall fuel nw g, 2 * g <= fuel + nw -> nw <= 2 * g -> pad_loop fuel nw g = 2 * g - nw.
Proof.
  induction fuel as [|f IH]; intros nw g H L; cbn [pad_loop]; [lia|].
  pose proof (Nat.div_mod nw 2 ltac:(lia)). pose proof (Nat.mod_upper_bound nw 2 ltac:(lia)).
  destruct (Nat.ltb_spec (nw / 2) g) as [X|X].
  - destruct (Nat.eq_dec nw (2 * g)) as [->|].
    + rewrite Nat.mul_comm, Nat.div_mul in X by lia. lia.
    + rewrite IH by lia. lia.
  - lia.
Qed.
Lemma configure_ok envlen values nw :
  configure_stage envlen values nw = if values <? nw then None else Some (map WVar (seq envlen nw), 2 * stage_gates values).
Proof.
  unfold configure_stage. destruct (Nat.ltb_spec values nw); auto. pose proof (ceil2_bounds values). rewrite pad_loop_ok by lia.
  do 2 f_equal. lia.
Qed.
Lemma inject_ok : forall m ws, inject m ws = if m <=? length ws then Some (firstn m ws) else None.
Proof.
  induction m as [|m IH]; intros ws; [reflexivity|]. destruct ws as [|w ws]; [reflexivity|]. cbn [inject length firstn].
  rewrite IH. change (S m <=? S (length ws)) with (m <=? length ws). destruct (m <=? length ws); reflexivity.
Qed.

Section StageP.
  Variable F : Field.
  Add Field FFst : (f_theory F).
  Open Scope f_scope.
  Notation row := (F * F * F * F)%type.

  (** ** stage polynomials *)
  Lemma pairs_ok : forall g (vs : list F),
    stage_pairs g vs = (map (fun t => nth (2 * t) vs 0) (seq 0 g), map (fun t => nth (2 * t + 1) vs 0) (seq 0 g)).
  Proof.
    induction g as [|g IH]; intros vs; [reflexivity|]. cbn [stage_pairs]. rewrite IH. cbn [seq map].
    assert (T : forall t d, nth (S (S t)) vs d = nth t (tl (tl vs)) d) by (intros t d; destruct vs as [|a [|b vs]]; cbn [tl nth]; auto; destruct t; auto).
    f_equal; rewrite <- seq_shift, map_map; (f_equal; [destruct vs as [|a [|b vs]]; reflexivity|]);
      apply map_ext; intros t; rewrite <- T; f_equal; lia.
  Qed.
  (** column entry: value [2(j-start)+par] of the stage *)
  Definition scol (start num par : nat) (out : list F) (j : nat) : F :=
    if (start <=? j)%nat && (j <? start + num)%nat then nth (2 * (j - start) + par) out 0 else 0.
  Lemma nth_col start num par (out : list F) (h : F) j : (1 <= start)%nat ->
    nth j (h :: repeat 0 (start - 1) ++ map (fun t => nth (2 * t + par) out 0) (seq 0 num)) 0 = if Nat.eqb j 0 then h else scol start num par out j.
  Proof.
    intros H. destruct j as [|j]; [reflexivity|]. cbn [nth Nat.eqb]. unfold scol.
    destruct (Nat.leb_spec start (S j)) as [L|L]; cbn [andb].
    - rewrite app_nth2; rewrite repeat_length; [|lia]. destruct (Nat.ltb_spec (S j) (start + num)) as [M|M].
      + rewrite (nth_indep _ 0 ((fun t => nth (2 * t + par) out 0) 0%nat)) by (rewrite map_length, seq_length; lia).
        rewrite (map_nth (fun t => nth (2 * t + par) out 0)). rewrite seq_nth by lia. f_equal. lia.
      + apply nth_overflow. rewrite map_length, seq_length. lia.
    - rewrite app_nth1 by (rewrite repeat_length; lia). apply nth_repeat.
  Qed.
  Lemma nth_zeros m j : nth j (0 :: repeat 0 m) (0 : F) = 0.
  Proof. destruct j; cbn [nth]; auto. apply nth_repeat. Qed.

  Lemma stage_rx_ok n parents values alpha out :
    let start := skip_gates parents in let num := stage_gates values in
    if (length out <=? values)%nat && (start + num <=? n)%nat then
      exists q, stage_rx n parents values alpha out = Some q /\ wf 0 (4 * n) q /\
        exists a b c d, (forall k, coeff_at q k = trace_coeff F n a b c d k) /\
          forall j, nth j a 0 = 0 /\ nth j b 0 = scol start num 0 out j /\ nth j c 0 = 0 /\
                    nth j d 0 = if Nat.eqb j 0 then alpha else scol start num 1 out j
    else stage_rx n parents values alpha out = None.
  Proof.
    intros start num. unfold stage_rx. fold start num. assert (P : (1 <= start)%nat).
    { unfold start. clear. induction parents; cbn [skip_gates]; lia. }
    rewrite pairs_ok. rewrite (map_ext (fun t => nth (2 * t) out 0) (fun t => nth (2 * t + 0) out 0)) by (intros; now rewrite Nat.add_0_r).
    destruct (Nat.leb_spec (length out) values) as [L|L], (Nat.ltb_spec values (length out)); try lia; cbn [andb].
    2:{ reflexivity. }
    destruct (Nat.leb_spec (start + num) n) as [M|M].
    - match goal with |- context [trace_build _ _ ?A ?B ?C ?D] =>
        destruct (trace_build_ok F n A B C D) as (q & E & W & Cq);
          try (cbn [length]; rewrite app_length, !repeat_length, ?map_length, ?seq_length; lia);
        exists q; split; [exact E|]; split; [exact W|]; exists A, B, C, D; split; [exact Cq|] end.
      intros j. rewrite !nth_col by auto. rewrite <- repeat_app, !nth_zeros.
      repeat split. destruct (Nat.eqb_spec j 0) as [->|]; auto. unfold scol. destruct (Nat.leb_spec start 0); [lia|reflexivity].
    - unfold trace_build, view_build. cbn [length]. rewrite app_length, !repeat_length.
      destruct (Nat.leb_spec (S (start - 1 + num)) n); [lia|reflexivity].
  Qed.

  (** ** the sum of the stage columns *)
  Lemma padded_length (v : nat) (out : list F) : (length out <= v)%nat -> length (padded v out) = (2 * ((v + 1) / 2))%nat.
  Proof. intros H. unfold padded. rewrite app_length, repeat_length. pose proof (ceil2_bounds v). rewrite ceil2 in H0. lia. Qed.
  Lemma nth_padded v (out : list F) i : nth i (padded v out) 0 = nth i out 0.
  Proof.
    unfold padded. destruct (Nat.lt_ge_cases i (length out)); [now rewrite app_nth1|]. rewrite app_nth2 by auto.
    rewrite nth_repeat, nth_overflow; auto.
  Qed.
  Definition flat_vals (st : list (nat * list F)) : list F := flat_map (fun s => padded (fst s) (snd s)) st.
  Lemma scols_sum : forall (st : list (nat * list F)) par j, (par < 2)%nat ->
    Forall (fun s => (length (snd s) <= fst s)%nat) st ->
    fsum (length st) (fun i => scol (stage_start (map fst st) i) ((fst (nth i st (0%nat, [])) + 1) / 2) par (snd (nth i st (0%nat, []))) j)
    = if Nat.eqb j 0 then 0 else nth (2 * (j - 1) + par) (flat_vals st) 0.
  Proof.
    induction st as [|[v out] st IH]; intros par j Hp Hl.
    - cbn [length fsum flat_vals flat_map]. destruct (Nat.eqb j 0); auto. now rewrite nth_overflow by (cbn; lia).
    - inversion Hl as [|? ? H1 H2]; subst. cbn [length]. rewrite fsum_S_first. cbn [map nth fst snd].
      change (stage_start (v :: map fst st) 0) with 1%nat. set (g := ((v + 1) / 2)%nat).
      rewrite (fsum_ext F _ _ (fun i => scol (stage_start (map fst st) i) ((fst (nth i st (0%nat, [])) + 1) / 2) par (snd (nth i st (0%nat, []))) (j - g))).
      2:{ intros i Hi. rewrite start_cons. fold g. unfold scol. pose proof (start_pos (map fst st) i).
          set (s := stage_start (map fst st) i) in *. set (m := ((fst (nth i st (0%nat, [])) + 1) / 2)%nat).
          destruct (Nat.leb_spec (g + s) j), (Nat.leb_spec s (j - g)), (Nat.ltb_spec j (g + s + m)), (Nat.ltb_spec (j - g) (s + m)); cbn [andb]; auto; try lia.
          f_equal. lia. }
      rewrite IH by auto. unfold flat_vals. cbn [flat_map fst snd]. fold (flat_vals st).
      assert (PL := padded_length v out H1). fold g in PL. unfold scol.
      destruct (Nat.eqb_spec j 0) as [->|J0].
      + destruct (Nat.leb_spec 1 0); [lia|]. cbn [andb]. rewrite Nat.sub_0_l. cbn [Nat.eqb]. ring.
      + destruct (Nat.leb_spec 1 j); [|lia]. cbn [andb]. destruct (Nat.ltb_spec j (1 + g)) as [L|L].
        * rewrite app_nth1 by lia. rewrite nth_padded. destruct (Nat.eqb_spec (j - g) 0); [|lia]. ring.
        * rewrite app_nth2 by lia. rewrite PL. destruct (Nat.eqb_spec (j - g) 0); [lia|].
          replace (2 * (j - 1) + par - 2 * g)%nat with (2 * (j - g - 1) + par)%nat by lia. ring.
  Qed.

  (** ** rows of a program that begins with allocations *)
  Lemma rows_allocs : forall G (vs : list F) k, length vs = (2 * G)%nat ->
    rows false (allocs vs k) = map (fun t => (0, nth (2 * t) vs 0, 0, nth (2 * t + 1) vs 0)) (seq 0 G) ++ rows false k.
  Proof.
    induction G as [|G IH]; intros vs k H.
    - destruct vs; [reflexivity|cbn in H; lia].
    - destruct vs as [|v0 [|v1 vs]]; try (cbn in H; lia). cbn [length] in H. unfold allocs. cbn [fold_right]. fold (allocs vs k).
      cbn [rows next_alloc]. rewrite IH by lia. cbn [seq map app]. f_equal. f_equal.
      rewrite <- seq_shift, map_map. apply map_ext. intros t. replace (2 * S t)%nat with (S (S (2 * t))) by lia. reflexivity.
  Qed.
  Lemma sub_rows_allocs vs (k : prog F) : sub_rows (allocs vs k) = sub_rows k.
  Proof. induction vs; cbn; auto. Qed.
  Lemma allocs_app vs ws (k : prog F) : allocs (vs ++ ws) k = allocs vs (allocs ws k).
  Proof. unfold allocs. now rewrite fold_right_app. Qed.
  Lemma sizes_allocs vs ws (k : prog F) outs : length vs = length ws ->
    sizes (orchestrate (allocs vs k) outs) = sizes (orchestrate (allocs ws k) outs).
  Proof.
    intros H. unfold orchestrate, sizes, scope_size. cbn [own_gates own_allocs own_cons sub_sizes].
    assert (G : forall (vs : list F) q, own_gates (prog_app (allocs vs k) q) = own_gates (prog_app k q) /\
      own_allocs (prog_app (allocs vs k) q) = (length vs + own_allocs (prog_app k q))%nat /\
      own_cons (prog_app (allocs vs k) q) = own_cons (prog_app k q) /\ sub_sizes (prog_app (allocs vs k) q) = sub_sizes (prog_app k q)).
    { intros us q. induction us as [|u us IH]; [repeat split|]. destruct IH as (A & B & C & D).
      unfold allocs. cbn [fold_right prog_app own_gates own_allocs own_cons sub_sizes length]. fold (allocs us k). rewrite A, B, C, D. repeat split. }
    destruct (G vs (enforce_outputs outs)) as (-> & -> & -> & ->), (G ws (enforce_outputs outs)) as (-> & -> & -> & ->). now rewrite H.
  Qed.

  (** ** the builder's program *)
  Lemma add_stages_ok : forall stages envlen (k : prog F),
    add_stages envlen stages k =
    if forallb (fun s => (snd s <=? fst s)%nat) stages then
      Some (map (fun i => map WVar (seq (envlen + 2 * (stage_start (map fst stages) i - 1)) (snd (nth i stages (0%nat, 0%nat))))) (seq 0 (length stages)),
            allocs (repeat 0 (2 * (stage_start (map fst stages) (length stages) - 1))) k)
    else None.
  Proof.
    induction stages as [|[v nw] stages IH]; intros envlen k; [reflexivity|].
    cbn [add_stages]. rewrite configure_ok. cbn [forallb fst snd].
    destruct (Nat.ltb_spec v nw), (Nat.leb_spec nw v); try lia; cbn [andb]; [reflexivity|].
    unfold obind. cbn [fst snd]. rewrite IH. destruct (forallb (fun s => (snd s <=? fst s)%nat) stages); [|reflexivity].
    cbn [fst snd length seq map]. rewrite ceil2. do 2 f_equal.
    - f_equal.
      + change (stage_start (v :: map fst stages) 0) with 1%nat. cbn [nth snd]. do 2 f_equal. lia.
      + rewrite <- seq_shift, map_map. apply map_ext. intros i. rewrite start_cons. cbn [nth]. do 2 f_equal.
        pose proof (start_pos (map fst stages) i). lia.
    - rewrite start_cons, <- allocs_app, <- repeat_app. do 2 f_equal. pose proof (start_pos (map fst stages) (length stages)). lia.
  Qed.

  (** ** the wires *)
  Lemma sem_allocs (val : nat -> kind -> nat -> F) : forall G vs k sid nxt g env, length vs = (2 * G)%nat ->
    sem val (allocs vs k) sid nxt g None env =
    sem val k sid nxt (g + G) None (env ++ flat_map (fun t => [val sid KB (g + t)%nat; val sid KD (g + t)%nat]) (seq 0 G)).
  Proof.
    induction G as [|G IH]; intros vs k sid nxt g env H.
    - destruct vs; [|cbn in H; lia]. cbn. now rewrite app_nil_r, Nat.add_0_r.
    - destruct vs as [|v0 [|v1 vs]]; try (cbn in H; lia). cbn [length] in H. unfold allocs. cbn [fold_right sem]. fold (allocs vs k).
      rewrite IH by lia. cbn [seq flat_map]. rewrite <- seq_shift, !flat_map_concat_map, map_map. f_equal; [lia|].
      rewrite <- !app_assoc. cbn [app]. rewrite Nat.add_0_r. do 4 f_equal. apply map_ext. intros t. now rewrite Nat.add_succ_r.
  Qed.
  Lemma nth_flat_pairs (f h : nat -> F) : forall G s i d, (i < 2 * G)%nat ->
    nth i (flat_map (fun t => [f t; h t]) (seq s G)) d = if Nat.even i then f (s + i / 2)%nat else h (s + i / 2)%nat.
  Proof.
    induction G as [|G IH]; intros s i d H; [lia|]. cbn [seq flat_map app]. destruct i as [|[|i]].
    - cbn [nth Nat.even]. now rewrite Nat.add_0_r.
    - cbn [nth Nat.even]. now rewrite Nat.add_0_r.
    - cbn [nth Nat.even]. rewrite IH by lia. replace (S (S i) / 2)%nat with (S (i / 2)).
      + now rewrite Nat.add_succ_comm.
      + change (S (S i)) with (2 + i)%nat. rewrite (Nat.add_comm 2 i). replace (i + 2)%nat with (i + 1 * 2)%nat by lia. rewrite Nat.div_add by lia. lia.
  Qed.

  (** ** columns of an assembled trace *)
  Lemma assembled_cols n alpha (body : prog F) outs order : (forall l, Permutation (order l) l) ->
    (list_sum (map fst (sizes (orchestrate body outs))) <= n)%nat ->
    exists tr q a b c d, trace_eval order body = Some tr /\
      assemble n (4 * n) (floor_plan (sizes (orchestrate body outs))) alpha tr = Some q /\ wf 0 (4 * n) q /\
      (forall k, coeff_at q k = trace_coeff F n a b c d k) /\
      a = map (ra F) (trace_rows F alpha body) /\ b = map (rb F) (trace_rows F alpha body) /\
      c = map (rc F) (trace_rows F alpha body) /\ d = map (rd F) (trace_rows F alpha body).
  Proof.
    intros Ho Hn. eexists. rewrite trace_eval_ok by exact Ho.
    pose proof (trace_rows_length F alpha body outs) as L.
    destruct (trace_build_ok F n (map (ra F) (trace_rows F alpha body)) (map (rb F) (trace_rows F alpha body))
      (map (rc F) (trace_rows F alpha body)) (map (rd F) (trace_rows F alpha body))) as (q & E & W & C);
      try (rewrite map_length, L; exact Hn).
    exists q. do 4 eexists. split; [reflexivity|]. rewrite assemble_ok. rewrite L.
    destruct (Nat.ltb_spec n (list_sum (map fst (sizes (orchestrate body outs))))); [lia|].
    split; [exact E|]. split; [exact W|]. split; [exact C|]. auto.
  Qed.

  Lemma trace_coeff_split n (a b c d a' b' c' d' : list F) m (A B C D : nat -> list F) k :
    (forall j, nth j a 0 = nth j a' 0 + fsum m (fun i => nth j (A i) 0)) ->
    (forall j, nth j b 0 = nth j b' 0 + fsum m (fun i => nth j (B i) 0)) ->
    (forall j, nth j c 0 = nth j c' 0 + fsum m (fun i => nth j (C i) 0)) ->
    (forall j, nth j d 0 = nth j d' 0 + fsum m (fun i => nth j (D i) 0)) ->
    trace_coeff F n a b c d k = trace_coeff F n a' b' c' d' k + fsum m (fun i => trace_coeff F n (A i) (B i) (C i) (D i) k).
  Proof.
    intros Ha Hb Hc Hd. unfold trace_coeff.
    destruct (k <? n); [apply Hc|]. destruct (k <? 2 * n); [apply Hb|]. destruct (k <? 3 * n); [apply Ha|]. destruct (k <? 4 * n); [apply Hd|].
    rewrite fsum_zero by auto. ring.
  Qed.

  Definition final_prog (st : list (nat * list F)) (k : prog F) : prog F :=
    allocs (repeat 0 (2 * (stage_start (map fst st) (length st) - 1))) k.
  Lemma flat_vals_length st : Forall (fun s => (length (snd s) <= fst s)%nat) st ->
    length (flat_vals st) = (2 * (stage_start (map fst st) (length st) - 1))%nat.
  Proof.
    induction 1 as [|[v out] st H _ IH]; [reflexivity|]. unfold flat_vals. cbn [flat_map map length fst snd]. fold (flat_vals st).
    rewrite app_length, IH, padded_length by auto. rewrite start_cons. pose proof (start_pos (map fst st) (length st)). lia.
  Qed.
  Lemma allocs_gates G vs (k : prog F) outs : length vs = (2 * G)%nat ->
    list_sum (map fst (sizes (orchestrate (allocs vs k) outs))) = (1 + G + length (rows false k ++ concat (sub_rows k)))%nat.
  Proof.
    intros H. rewrite <- (trace_rows_length F 0). unfold trace_rows. cbn [length]. rewrite (rows_allocs G) by auto. rewrite sub_rows_allocs.
    rewrite !app_length, map_length, seq_length. lia.
  Qed.

  Section Sum.
    Variables (n : nat) (st : list (nat * list F)) (k : prog F) (outs : list wref) (alpha0 : F) (alphas : nat -> F).
    Hypothesis fit : Forall (fun s => (length (snd s) <= fst s)%nat) st.
    Let vals := map fst st.
    Hypothesis gates : (list_sum (map fst (sizes (orchestrate (final_prog st k) outs))) <= n)%nat.
    Definition nst (i : nat) := nth i st (0%nat, []).
    Definition parents (i : nat) : list nat := rev (firstn i vals).

    Lemma stages_fit : (stage_start vals (length st) <= n)%nat.
    Proof.
      unfold final_prog in gates. rewrite (allocs_gates (stage_start vals (length st) - 1)) in gates by (rewrite repeat_length; reflexivity).
      pose proof (start_pos vals (length st)). lia.
    Qed.
    Lemma stage_end_le i : (i < length st)%nat -> (stage_start vals i + stage_gates (fst (nst i)) <= stage_start vals (length st))%nat.
    Proof.
      intros Hi. rewrite ceil2. rewrite <- (start_S vals i (fst (nst i))).
      - apply start_mono. lia.
      - unfold vals, nst. rewrite nth_error_map, (nth_error_nth' st (0%nat, []) Hi). reflexivity.
    Qed.
    Lemma nst_fit i : (i < length st)%nat -> (length (snd (nst i)) <= fst (nst i))%nat.
    Proof. intros Hi. rewrite Forall_forall in fit. apply fit. now apply nth_In. Qed.
    Lemma stage_some i : (i < length st)%nat ->
      exists q, stage_rx n (parents i) (fst (nst i)) (alphas i) (snd (nst i)) = Some q /\ wf 0 (4 * n) q /\
        exists a b c d, (forall k, coeff_at q k = trace_coeff F n a b c d k) /\
          forall j, nth j a 0 = 0 /\ nth j b 0 = scol (stage_start vals i) ((fst (nst i) + 1) / 2) 0 (snd (nst i)) j /\ nth j c 0 = 0 /\
                    nth j d 0 = if Nat.eqb j 0 then alphas i else scol (stage_start vals i) ((fst (nst i) + 1) / 2) 1 (snd (nst i)) j.
    Proof.
      intros Hi. pose proof (stage_rx_ok n (parents i) (fst (nst i)) (alphas i) (snd (nst i))) as H. cbn zeta in H.
      unfold parents in *. rewrite skip_start in H. pose proof (nst_fit i Hi). pose proof (stage_end_le i Hi). pose proof stages_fit.
      destruct (Nat.leb_spec (length (snd (nst i))) (fst (nst i))); [|lia].
      destruct (Nat.leb_spec (stage_start vals i + stage_gates (fst (nst i))) n); [|lia]. cbn [andb] in H.
      rewrite ceil2 in H. exact H.
    Qed.
    Definition qof (i : nat) : poly F :=
      match stage_rx n (parents i) (fst (nst i)) (alphas i) (snd (nst i)) with Some q => q | None => [] end.

    Lemma nth_rows (f : row -> F) (G : nat) (h : nat -> row) R j : f (0, 0, 0, 0) = 0 ->
      nth j (map f (map h (seq 0 G) ++ R)) 0 = if (j <? G)%nat then f (h j) else nth (j - G) (map f R) 0.
    Proof.
      intros Hf. rewrite map_app. destruct (Nat.ltb_spec j G).
      - rewrite app_nth1 by (rewrite !map_length, seq_length; lia). rewrite (nth_indep _ 0 (f (h 0%nat))) by (rewrite !map_length, seq_length; lia).
        rewrite map_nth, map_nth, seq_nth by lia. reflexivity.
      - rewrite app_nth2 by (rewrite !map_length, seq_length; lia). rewrite !map_length, seq_length. reflexivity.
    Qed.
    (** a column of the full trace and of the final trace *)
    Lemma col_split (f : row -> F) al al' vs par : length vs = (2 * (stage_start vals (length st) - 1))%nat ->
      f (0, 0, 0, 0) = 0 ->
      (forall x y, f (0, x, 0, y) = if Nat.eqb par 0 then x else if Nat.eqb par 1 then y else 0) ->
      forall j, nth j (map f (trace_rows F al (allocs vs k))) 0 =
        nth j (map f (trace_rows F al' (final_prog st k))) 0 +
        (if Nat.eqb j 0 then f (0, 1, 0, al) - f (0, 1, 0, al') else if (par <? 2)%nat then nth (2 * (j - 1) + par) vs 0 else 0).
    Proof.
      intros L F0 Fp j. set (G := (stage_start vals (length st) - 1)%nat) in *. unfold trace_rows, final_prog. fold vals. fold G.
      rewrite !(rows_allocs G) by (rewrite ?repeat_length; auto). rewrite !sub_rows_allocs. cbn [map]. destruct j as [|j].
      { cbn [nth Nat.eqb]. ring. }
      cbn [nth Nat.eqb]. rewrite <- !app_assoc, !nth_rows by auto. destruct (Nat.ltb_spec j G) as [H|H].
      - rewrite !Fp. rewrite !nth_repeat. replace (S j - 1)%nat with j by lia.
        destruct par as [|[|par]]; cbn [Nat.eqb Nat.ltb Nat.leb]; rewrite ?Nat.add_0_r; ring.
      - assert (Z : (if (par <? 2)%nat then nth (2 * (S j - 1) + par) vs 0 else 0) = (0 : F)).
        { destruct (par <? 2)%nat; auto. apply nth_overflow. lia. }
        rewrite Z. ring.
    Qed.

    Lemma stages_sum order : (forall l, Permutation (order l) l) ->
      let full := allocs (flat_vals st) k in
      sizes (orchestrate full outs) = sizes (orchestrate (final_prog st k) outs) /\
      exists trf tr qf q, trace_eval order full = Some tr /\ trace_eval order (final_prog st k) = Some trf /\
        assemble n (4 * n) (floor_plan (sizes (orchestrate full outs))) (alpha0 + fsum (length st) alphas) tr = Some q /\
        assemble n (4 * n) (floor_plan (sizes (orchestrate full outs))) alpha0 trf = Some qf /\
        wf 0 (4 * n) q /\ wf 0 (4 * n) qf /\
        (forall e, coeff_at q e = coeff_at qf e + fsum (length st) (fun i => coeff_at (qof i) e)) /\
        (forall e, (e < 4 * n)%nat -> (1 <= gate_of n e < stage_start vals (length st))%nat -> coeff_at qf e = 0).
    Proof.
      intros Ho full. pose proof (flat_vals_length st fit) as L. fold vals in L.
      assert (Sz : sizes (orchestrate full outs) = sizes (orchestrate (final_prog st k) outs)).
      { unfold full, final_prog. apply sizes_allocs. rewrite repeat_length. exact L. }
      split; [exact Sz|].
      destruct (assembled_cols n alpha0 (final_prog st k) outs order Ho gates) as (trf & qf & a' & b' & c' & d' & T' & A' & W' & C' & Ea' & Eb' & Ec' & Ed').
      assert (gates' : (list_sum (map fst (sizes (orchestrate full outs))) <= n)%nat) by (rewrite Sz; exact gates).
      destruct (assembled_cols n (alpha0 + fsum (length st) alphas) full outs order Ho gates') as (tr & q & a & b & c & d & T & A & W & C & Ea & Eb & Ec & Ed).
      exists trf, tr, qf, q. split; [exact T|]. split; [exact T'|]. split; [exact A|]. split; [rewrite Sz; exact A'|].
      split; [exact W|]. split; [exact W'|]. split.
      - intros e. rewrite C, C'.
        (* columns of the stages *)
        assert (Ch : forall m, (m <= length st)%nat -> exists AA BB CC DD : nat -> list F, forall i, (i < m)%nat ->
          (forall e, coeff_at (qof i) e = trace_coeff F n (AA i) (BB i) (CC i) (DD i) e) /\
          forall j, nth j (AA i) 0 = 0 /\ nth j (BB i) 0 = scol (stage_start vals i) ((fst (nst i) + 1) / 2) 0 (snd (nst i)) j /\ nth j (CC i) 0 = 0 /\
                    nth j (DD i) 0 = if Nat.eqb j 0 then alphas i else scol (stage_start vals i) ((fst (nst i) + 1) / 2) 1 (snd (nst i)) j).
        { induction m as [|m IHm]; intros Hm.
          - exists (fun _ => []), (fun _ => []), (fun _ => []), (fun _ => []). intros i Hi. lia.
          - destruct (IHm ltac:(lia)) as (AA & BB & CC & DD & H). destruct (stage_some m ltac:(lia)) as (qq & E & _ & a1 & b1 & c1 & d1 & H1 & H2).
            exists (fun i => if Nat.eqb i m then a1 else AA i), (fun i => if Nat.eqb i m then b1 else BB i),
                   (fun i => if Nat.eqb i m then c1 else CC i), (fun i => if Nat.eqb i m then d1 else DD i).
            intros i Hi. destruct (Nat.eqb_spec i m) as [->|Ni].
            + split; [|exact H2]. intros e'. unfold qof. rewrite E. apply H1.
            + apply H. lia. }
        destruct (Ch (length st) ltac:(lia)) as (AA & BB & CC & DD & H).
        rewrite (fsum_ext F _ _ (fun i => trace_coeff F n (AA i) (BB i) (CC i) (DD i) e)) by (intros i Hi; apply H; exact Hi).
        subst a b c d a' b' c' d'. apply trace_coeff_split; intros j.
        + rewrite (col_split (ra F) (alpha0 + fsum (length st) alphas) alpha0 (flat_vals st) 2 L); try reflexivity.
          rewrite (fsum_zero F (length st) (fun i => nth j (AA i) 0)) by (intros i Hi; destruct (H i Hi) as [_ H']; apply (H' j)). cbn. destruct (Nat.eqb j 0); ring.
        + rewrite (col_split (rb F) (alpha0 + fsum (length st) alphas) alpha0 (flat_vals st) 0 L); try reflexivity.
          rewrite (fsum_ext F _ (fun i => nth j (BB i) 0) (fun i => scol (stage_start vals i) ((fst (nst i) + 1) / 2) 0 (snd (nst i)) j)) by (intros i Hi; destruct (H i Hi) as [_ H']; apply (H' j)).
          unfold nst, vals. rewrite scols_sum by (auto; lia). cbn [Nat.ltb Nat.leb]. f_equal. destruct (Nat.eqb j 0); [cbn; ring|reflexivity].
        + rewrite (col_split (rc F) (alpha0 + fsum (length st) alphas) alpha0 (flat_vals st) 2 L); try reflexivity.
          rewrite (fsum_zero F (length st) (fun i => nth j (CC i) 0)) by (intros i Hi; destruct (H i Hi) as [_ H']; apply (H' j)). cbn. destruct (Nat.eqb j 0); ring.
        + rewrite (col_split (rd F) (alpha0 + fsum (length st) alphas) alpha0 (flat_vals st) 1 L); try reflexivity.
          f_equal. destruct (Nat.eqb_spec j 0) as [->|J].
          * rewrite (fsum_ext F _ (fun i => nth 0 (DD i) 0) alphas); [cbn; ring|]. intros i Hi. destruct (H i Hi) as [_ H']. destruct (H' 0%nat) as (_ & _ & _ & ->). reflexivity.
          * rewrite (fsum_ext F _ (fun i => nth j (DD i) 0) (fun i => scol (stage_start vals i) ((fst (nst i) + 1) / 2) 1 (snd (nst i)) j)).
            2:{ intros i Hi. destruct (H i Hi) as [_ H']. destruct (H' j) as (_ & _ & _ & ->). destruct (Nat.eqb_spec j 0); [lia|reflexivity]. }
            unfold nst, vals. rewrite scols_sum by (auto; lia). destruct (Nat.eqb_spec j 0); [lia|reflexivity].
      - intros e He Hg. rewrite C'. subst a' b' c' d'.
        assert (Z : forall (f : row -> F) j, f (0, 0, 0, 0) = 0 -> (1 <= j < stage_start vals (length st))%nat ->
                    nth j (map f (trace_rows F alpha0 (final_prog st k))) 0 = 0).
        { intros f j Hf Hj. unfold trace_rows, final_prog. fold vals. destruct j as [|j]; [lia|]. cbn [map nth].
          rewrite (rows_allocs (stage_start vals (length st) - 1)) by (rewrite repeat_length; auto). rewrite <- app_assoc, nth_rows by auto.
          destruct (Nat.ltb_spec j (stage_start vals (length st) - 1)); [|lia]. now rewrite !nth_repeat. }
        unfold trace_coeff, gate_of in *.
        destruct (Nat.ltb_spec e n); [apply Z; auto|]; destruct (Nat.ltb_spec e (2 * n)); [apply Z; auto|];
          destruct (Nat.ltb_spec e (3 * n)); [apply Z; auto|]; destruct (Nat.ltb_spec e (4 * n)); [apply Z; auto|reflexivity].
    Qed.
  End Sum.
End StageP.
