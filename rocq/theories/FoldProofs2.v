(** The in-circuit claim folder computes the weighted matrix sum. *)
From Coq Require Import List Arith Bool Lia Ring Field.
From Verif Require Import FieldDef ModDef ArithModel ArithSpec SparseModel SparseSpec SparseProofs GadgetModel GadgetSpec GadgetProofs PrimModel
  FoldModel FoldSpec FoldProofs.
Import ListNotations.
Local Open Scope nat_scope.

Section FoldC.
  Variable F : Field.
  Add Field FFfc : (f_theory F).
  Open Scope f_scope.

  (** Horner accumulation with an optional start *)
  Definition hzv (p : F) (acc : option F) (v : F) : F := match acc with Some a => a * p + v | None => v end.
  Definition hzs (p : F) (ts : list F) (acc : option F) : option F := fold_left (fun a t => Some (hzv p a t)) ts acc.
  Definition hmuls (acc : option F) (n : nat) : nat := match acc with Some _ => n | None => n - 1 end.

  Lemma hfold_S n (s : F) (f : nat -> F) : hfold (S n) s f = s * hfold n s f + f n.
  Proof.
    unfold hfold. cbn [fsum]. replace (S n - 1 - n)%nat with O by lia. rewrite fpow_0. f_equal; [|ring].
    rewrite <- fsum_scale. apply fsum_ext. intros i Hi. replace (S n - 1 - i)%nat with (S (n - 1 - i)) by lia. rewrite fpow_S. ring.
  Qed.
  Lemma hfold_ext n (s : F) (f g : nat -> F) : (forall i, (i < n)%nat -> f i = g i) -> hfold n s f = hfold n s g.
  Proof. intros H. apply fsum_ext. intros i Hi. rewrite H by exact Hi. reflexivity. Qed.
  Lemma hzs_val (p : F) (ts : list F) : hzs p ts None = match ts with [] => None | _ => Some (hfold (length ts) p (fun i => nth i ts 0)) end.
  Proof.
    induction ts as [|t ts IH] using rev_ind; [reflexivity|]. unfold hzs in *. rewrite fold_left_app. cbn [fold_left]. rewrite IH.
    rewrite app_length. cbn [length]. rewrite Nat.add_1_r, hfold_S.
    rewrite app_nth2, Nat.sub_diag by lia. cbn [nth].
    rewrite (hfold_ext _ _ (fun i => nth i (ts ++ [t]) 0) (fun i => nth i ts 0)) by (intros i Hi; rewrite app_nth1 by exact Hi; reflexivity).
    destruct ts as [|u ts]; cbn [app].
    - cbn [hzv length]. f_equal. unfold hfold. cbn [fsum]. ring.
    - unfold hzv. f_equal. ring.
  Qed.

  Lemma hz_write_w (p : F) acc (v : F) r : holds (hz_write (wir p) (option_map wir acc) (wir v)) r <-> r = Some (wir (hzv p acc v)).
  Proof.
    destruct acc as [a|]; cbn [hz_write option_map hzv].
    - rewrite e_mul_bw, e_add_bw. apply ret_w.
    - apply ret_w.
  Qed.
  Lemma hz_write_s (p : F) acc (v : F) st : simulate (hz_write (hon p) (option_map hon acc) (hon v)) st
    = Some (Some (hon (hzv p acc v)), bump st 0 (hmuls acc 1) (2 * hmuls acc 1)).
  Proof.
    destruct acc as [a|]; cbn [hz_write option_map hzv hmuls].
    - rewrite sim_bind, e_mul_s. rewrite sim_bind, e_add_s. reflexivity.
    - cbn [simulate]. destruct st; unfold bump; cbn. repeat f_equal; lia.
  Qed.
  Lemma hz_finish_w (acc : option F) r : holds (hz_finish 1 false (option_map wir acc)) r <-> r = wir (match acc with Some a => a | None => 0 end).
  Proof. destruct acc; cbn [hz_finish option_map]; [apply ret_w|apply e_zero_w]. Qed.
  Lemma hz_finish_s (acc : option F) st : simulate (hz_finish 1 true (option_map hon acc)) st = Some (hon (match acc with Some a => a | None => 0 end), st).
  Proof. destruct acc; cbn [hz_finish option_map]; [reflexivity|apply e_zero_s]. Qed.

  (** what a row consumes *)
  Fixpoint consume (i : nat) (js : list nat) (errs kys : list F) : option (list F * (list F * list F)) :=
    match js with
    | [] => Some ([], (errs, kys))
    | j :: js' =>
        if (i =? j)%nat then match kys with [] => None | t :: k' => option_map (fun r => (t :: fst r, snd r)) (consume i js' errs k') end
        else match errs with [] => None | t :: e' => option_map (fun r => (t :: fst r, snd r)) (consume i js' e' kys) end
    end.
  Lemma consume_len i : forall js errs kys x, consume i js errs kys = Some x -> length (fst x) = length js.
  Proof.
    induction js as [|j js IH]; intros errs kys x; cbn [consume].
    - intros E. assert (x = ([], (errs, kys))) by congruence. subst x. reflexivity.
    - destruct (i =? j)%nat; [destruct kys as [|t k']|destruct errs as [|t k']]; try discriminate.
      + destruct (consume i js errs k') as [y|] eqn:E; [|discriminate]. cbn [option_map]. intros H.
        assert (x = (t :: fst y, snd y)) by congruence. subst x. cbn [fst length]. f_equal. eapply IH. exact E.
      + destruct (consume i js k' kys) as [y|] eqn:E; [|discriminate]. cbn [option_map]. intros H.
        assert (x = (t :: fst y, snd y)) by congruence. subst x. cbn [fst length]. f_equal. eapply IH. exact E.
  Qed.
  Lemma fp_row_w (mn : F) i : forall js errs kys acc r,
    holds (fp_row (wir mn) i js (map wir errs) (map wir kys) (option_map wir acc)) r <->
    match consume i js errs kys with
    | None => False
    | Some (ts, (e', k')) => r = (option_map wir (hzs mn ts acc), (map wir e', map wir k'))
    end.
  Proof.
    induction js as [|j js IH]; intros errs kys acc r; cbn [fp_row consume]; [apply ret_w|].
    destruct (i =? j)%nat; [destruct kys as [|t k']|destruct errs as [|t k']]; cbn [map]; try (cbn [holds]; tauto).
    - rewrite (holds_det F _ (Some (wir (hzv mn acc t)))) by apply hz_write_w.
      change (Some (wir (hzv mn acc t))) with (option_map wir (Some (hzv mn acc t))). rewrite IH.
      destruct (consume i js errs k') as [[ts [e2 k2]]|]; cbn [option_map fst snd]; [|tauto]. reflexivity.
    - rewrite (holds_det F _ (Some (wir (hzv mn acc t)))) by apply hz_write_w.
      change (Some (wir (hzv mn acc t))) with (option_map wir (Some (hzv mn acc t))). rewrite IH.
      destruct (consume i js k' kys) as [[ts [e2 k2]]|]; cbn [option_map fst snd]; [|tauto]. reflexivity.
  Qed.
  Lemma bump_bump' st a b c a' b' c' : bump (bump st a b c) a' b' c' = bump st (a + a') (b + b') (c + c').
  Proof. apply bump_bump. Qed.
  Lemma fp_row_s (mn : F) i : forall js errs kys acc st,
    simulate (fp_row (hon mn) i js (map hon errs) (map hon kys) (option_map hon acc)) st =
    match consume i js errs kys with
    | None => None
    | Some (ts, (e', k')) => Some ((option_map hon (hzs mn ts acc), (map hon e', map hon k')),
                                   bump st 0 (hmuls acc (length js)) (2 * hmuls acc (length js)))
    end.
  Proof.
    induction js as [|j js IH]; intros errs kys acc st; cbn [fp_row consume].
    - cbn [simulate]. destruct st; unfold bump; destruct acc; cbn; repeat f_equal; lia.
    - destruct (i =? j)%nat; [destruct kys as [|t k']|destruct errs as [|t k']]; cbn [map]; try reflexivity.
      + rewrite sim_bind, hz_write_s. change (Some (hon (hzv mn acc t))) with (option_map hon (Some (hzv mn acc t))). rewrite IH.
        destruct (consume i js errs k') as [[ts [e2 k2]]|]; cbn [option_map fst snd]; [|reflexivity]. rewrite bump_bump'.
        f_equal. f_equal. cbn [length]. destruct acc; cbn [hmuls]; f_equal; lia.
      + rewrite sim_bind, hz_write_s. change (Some (hon (hzv mn acc t))) with (option_map hon (Some (hzv mn acc t))). rewrite IH.
        destruct (consume i js k' kys) as [[ts [e2 k2]]|]; cbn [option_map fst snd]; [|reflexivity]. rewrite bump_bump'.
        f_equal. f_equal. cbn [length]. destruct acc; cbn [hmuls]; f_equal; lia.
  Qed.

  Definition orz (x : option F) : F := match x with Some a => a | None => 0 end.
  Fixpoint consume_rows (mn : F) (n : nat) (is : list nat) (errs kys : list F) : option (list F) :=
    match is with
    | [] => Some []
    | i :: is' => match consume i (seq 0 n) errs kys with
                  | None => None
                  | Some (ts, (e', k')) => option_map (cons (orz (hzs mn ts None))) (consume_rows mn n is' e' k')
                  end
    end.
  Lemma fp_rows_w (mn mi : F) n : forall is errs kys acc r,
    holds (fp_rows 1 false (mk_cfolder (wir mn) (wir mi)) n is (map wir errs) (map wir kys) (option_map wir acc)) r <->
    match consume_rows mn n is errs kys with
    | None => False
    | Some vs => r = option_map wir (hzs mi vs acc)
    end.
  Proof.
    induction is as [|i is IH]; intros errs kys acc r; cbn [fp_rows consume_rows cf_mu_nu cf_mu_inv]; [apply ret_w|].
    rewrite holds_bind. change (@None (elem F F)) with (option_map wir (@None F)).
    destruct (consume i (seq 0 n) errs kys) as [[ts [e2 k2]]|] eqn:E.
    - split.
      + intros (x & Hx & H). apply fp_row_w in Hx. rewrite E in Hx. subst x. cbn [fst snd] in H.
        rewrite (holds_det F _ (wir (orz (hzs mn ts None)))) in H by apply hz_finish_w.
        rewrite (holds_det F _ (Some (wir (hzv mi acc (orz (hzs mn ts None)))))) in H by apply hz_write_w.
        change (Some (wir (hzv mi acc (orz (hzs mn ts None))))) with (option_map wir (Some (hzv mi acc (orz (hzs mn ts None))))) in H.
        apply IH in H. destruct (consume_rows mn n is e2 k2); [|contradiction]. exact H.
      + intros H. exists (option_map wir (hzs mn ts None), (map wir e2, map wir k2)). split.
        * apply fp_row_w. rewrite E. reflexivity.
        * cbn [fst snd]. rewrite (holds_det F _ (wir (orz (hzs mn ts None)))) by apply hz_finish_w.
          rewrite (holds_det F _ (Some (wir (hzv mi acc (orz (hzs mn ts None)))))) by apply hz_write_w.
          change (Some (wir (hzv mi acc (orz (hzs mn ts None))))) with (option_map wir (Some (hzv mi acc (orz (hzs mn ts None))))).
          apply IH. destruct (consume_rows mn n is e2 k2); [exact H|contradiction].
    - split; [|tauto]. intros (x & Hx & _). apply fp_row_w in Hx. rewrite E in Hx. exact Hx.
  Qed.
  Lemma fp_rows_s (mn mi : F) n : forall is errs kys acc st,
    simulate (fp_rows 1 true (mk_cfolder (hon mn) (hon mi)) n is (map hon errs) (map hon kys) (option_map hon acc)) st =
    match consume_rows mn n is errs kys with
    | None => None
    | Some vs => let c := (hmuls acc (length is) + length is * (n - 1))%nat in Some (option_map hon (hzs mi vs acc), bump st 0 c (2 * c))
    end.
  Proof.
    induction is as [|i is IH]; intros errs kys acc st; cbn [fp_rows consume_rows cf_mu_nu cf_mu_inv].
    - cbn [simulate]. destruct st; unfold bump; destruct acc; cbn; repeat f_equal; lia.
    - rewrite sim_bind. change (@None (elem F F)) with (option_map hon (@None F)). rewrite fp_row_s.
      destruct (consume i (seq 0 n) errs kys) as [[ts [e2 k2]]|] eqn:E; [|reflexivity]. cbn [fst snd].
      rewrite sim_bind, hz_finish_s. fold (orz (hzs mn ts None)). rewrite sim_bind, hz_write_s.
      change (Some (hon (hzv mi acc (orz (hzs mn ts None))))) with (option_map hon (Some (hzv mi acc (orz (hzs mn ts None))))).
      rewrite IH. destruct (consume_rows mn n is e2 k2) as [vs|]; [|reflexivity]. cbn [option_map].
      rewrite !bump_bump', seq_length. cbn zeta. f_equal. f_equal. cbn [length]. destruct acc; cbn [hmuls]; f_equal; lia.
  Qed.

  (** feeding a matrix row by row *)
  Lemma consume_mat (t : nat -> F) i re rk : forall js,
    consume i js (map t (filter (fun j => negb (i =? j)%nat) js) ++ re) (map t (filter (fun j => i =? j)%nat js) ++ rk) = Some (map t js, (re, rk)).
  Proof.
    induction js as [|j js IH]; [reflexivity|]. cbn [consume filter map]. destruct (i =? j)%nat; cbn [negb map app]; rewrite IH; reflexivity.
  Qed.
  Lemma filter_diag i n : (i < n)%nat -> filter (fun j => i =? j)%nat (seq 0 n) = [i].
  Proof.
    intros H. replace n with (i + S (n - 1 - i))%nat by lia. rewrite seq_app, filter_app. cbn [seq filter]. rewrite Nat.add_0_l, Nat.eqb_refl.
    assert (Q : forall l, (forall j, In j l -> j <> i) -> filter (fun j => i =? j)%nat l = []).
    { induction l as [|x l IH]; intros Hl; [reflexivity|]. cbn [filter]. destruct (Nat.eqb_spec i x) as [E|E].
      - exfalso. apply (Hl x); [left; reflexivity|auto].
      - apply IH. intros j Hj. apply Hl. right. exact Hj. }
    rewrite !Q; [reflexivity| |]; intros j Hj; apply in_seq in Hj; lia.
  Qed.
  Lemma consume_rows_mat (mn : F) (t : nat -> nat -> F) n : forall is, (forall i, In i is -> (i < n)%nat) -> forall re rk,
    consume_rows mn n is (flat_map (fun i => map (t i) (filter (fun j => negb (i =? j)%nat) (seq 0 n))) is ++ re) (map (fun i => t i i) is ++ rk)
    = Some (map (fun i => hfold n mn (t i)) is).
  Proof.
    induction is as [|i is IH]; intros Hi re rk; [reflexivity|]. cbn [consume_rows flat_map map app].
    rewrite <- app_assoc. assert (Li : (i < n)%nat) by (apply Hi; left; reflexivity).
    change (t i i :: map (fun i => t i i) is ++ rk) with (map (t i) [i] ++ (map (fun i => t i i) is ++ rk)).
    rewrite <- (filter_diag i n Li). rewrite consume_mat. rewrite IH by (intros; apply Hi; right; assumption).
    cbn [option_map]. f_equal. f_equal. rewrite hzs_val. destruct n as [|n]; [lia|].
    remember (seq 0 (S n)) as sq eqn:Es. destruct sq as [|x sq]; [discriminate|].
    cbn [map orz]. change (t i x :: map (t i) sq) with (map (t i) (x :: sq)). rewrite Es, map_length, seq_length.
    apply hfold_ext. intros k Hk. rewrite nth_indep with (d' := t i O) by (rewrite map_length, seq_length; exact Hk).
    rewrite map_nth, seq_nth by exact Hk. reflexivity.
  Qed.
  Lemma flat_off (t : nat -> nat -> F) n : map (fun ij => t (fst ij) (snd ij)) (off_diagonal n)
    = flat_map (fun i => map (t i) (filter (fun j => negb (i =? j)%nat) (seq 0 n))) (seq 0 n).
  Proof.
    unfold off_diagonal. generalize (seq 0 n) at 2 4. intros is. induction is as [|i is IH]; [reflexivity|].
    cbn [flat_map]. rewrite map_app, IH. f_equal. generalize (seq 0 n). intros js. induction js as [|j js IHj]; [reflexivity|].
    cbn [flat_map filter]. destruct (negb (i =? j)%nat); cbn [map app]; [f_equal|]; exact IHj.
  Qed.
  Lemma rows_entry (mn : F) n (errs ky : list F) : length errs = num_error_terms n -> length ky = n ->
    consume_rows mn n (seq 0 n) errs ky = Some (map (fun i => hfold n mn (entry n errs ky i)) (seq 0 n)).
  Proof.
    intros He Hk. pose proof (consume_rows_mat mn (entry n errs ky) n (seq 0 n)) as Q. specialize (Q ltac:(intros i Hi; apply in_seq in Hi; lia) [] []).
    rewrite !app_nil_r, <- flat_off, entry_errs, entry_ky in Q by assumption. exact Q.
  Qed.
  Lemma rows_weigh (mn mi : F) n (t : nat -> nat -> F) :
    orz (hzs mi (map (fun i => hfold n mn (t i)) (seq 0 n)) None) = weigh n mi mn t.
  Proof.
    rewrite hzs_val. destruct n as [|n]; [reflexivity|]. remember (seq 0 (S n)) as sq eqn:Es. destruct sq as [|x sq]; [discriminate|].
    cbn [map orz]. rewrite <- (map_cons (fun i => hfold (S n) mn (t i)) x sq), Es, map_length, seq_length. unfold hfold at 1, weigh.
    apply fsum_ext. intros i Hi.
    rewrite nth_indep with (d' := hfold (S n) mn (t O)) by (rewrite map_length, seq_length; exact Hi).
    rewrite (map_nth (fun i => hfold (S n) mn (t i))), seq_nth by exact Hi. cbn [Nat.add]. unfold hfold. rewrite <- fsum_scale.
    apply fsum_ext. intros j _. ring.
  Qed.

  Lemma fold_products_w n (mn mi : F) (errs ky : list F) r : length errs = num_error_terms n -> length ky = n ->
    (holds (fold_products 1 false n (mk_cfolder (wir mn) (wir mi)) (map wir errs) (map wir ky)) r <-> r = wir (weigh n mi mn (entry n errs ky))).
  Proof.
    intros He Hk. unfold fold_products. rewrite holds_bind. change (@None (elem F F)) with (option_map wir (@None F)). split.
    - intros (x & Hx & H). apply fp_rows_w in Hx. rewrite rows_entry in Hx by assumption. subst x. apply hz_finish_w in H.
      fold (orz (hzs mi (map (fun i => hfold n mn (entry n errs ky i)) (seq 0 n)) None)) in H. rewrite rows_weigh in H. exact H.
    - intros ->. exists (option_map wir (hzs mi (map (fun i => hfold n mn (entry n errs ky i)) (seq 0 n)) None)). split.
      + apply fp_rows_w. rewrite rows_entry by assumption. reflexivity.
      + apply hz_finish_w. fold (orz (hzs mi (map (fun i => hfold n mn (entry n errs ky i)) (seq 0 n)) None)). rewrite rows_weigh. reflexivity.
  Qed.
  Lemma fold_products_s n (mn mi : F) (errs ky : list F) st : length errs = num_error_terms n -> length ky = n ->
    simulate (fold_products 1 true n (mk_cfolder (hon mn) (hon mi)) (map hon errs) (map hon ky)) st
    = Some (hon (weigh n mi mn (entry n errs ky)), bump st 0 (n * n - 1) (2 * (n * n - 1))).
  Proof.
    intros He Hk. unfold fold_products. rewrite sim_bind. change (@None (elem F F)) with (option_map hon (@None F)).
    rewrite fp_rows_s, rows_entry by assumption. cbv beta iota zeta. rewrite hz_finish_s.
    fold (orz (hzs mi (map (fun i => hfold n mn (entry n errs ky i)) (seq 0 n)) None)). rewrite rows_weigh. cbn [hmuls]. rewrite seq_length.
    replace (n - 1 + n * (n - 1))%nat with (n * n - 1)%nat by nia. reflexivity.
  Qed.
  Lemma cf_new_w (mu nu : F) r : holds (cf_new 1 (wir mu) (wir nu)) r <-> mu <> 0 /\ r = mk_cfolder (wir (mu * nu)) (wir (finv mu)).
  Proof.
    unfold cf_new. rewrite e_mul_bw, holds_bind. split.
    - intros (x & Hx & H). apply e_invert_w in Hx. destruct Hx as (A & ->). apply ret_w in H. auto.
    - intros (A & ->). exists (wir (finv mu)). split; [apply e_invert_w; auto|]. apply ret_w. reflexivity.
  Qed.
  Lemma cf_new_s (mu nu : F) st : simulate (cf_new 1 (hon mu) (hon nu)) st
    = if feqb mu 0 then None else Some (mk_cfolder (hon (mu * nu)) (hon (finv mu)), bump st 0 2 4).
  Proof.
    unfold cf_new. rewrite sim_bind, e_mul_s, sim_bind, e_invert_s. destruct (feqb mu 0); [reflexivity|]. cbn [simulate].
    rewrite bump_bump'. reflexivity.
  Qed.

  (** ** evaluations *)
  Lemma tl_groups_w m (l1 : F) : forall cs r,
    holds (tl_groups 1 false m (wir 0) (wir l1) (map (map wir) cs)) r <->
    r = map wir (map (fun c => peval (rev (c ++ repeat 0 (m - length c))) l1) cs).
  Proof.
    induction cs as [|c cs IH]; intros r; cbn [tl_groups map]; [apply ret_w|].
    assert (Q : map wir c ++ repeat (wir 0) (m - length (map wir c)) = map wir (c ++ repeat 0 (m - length c))).
    { rewrite map_app, map_length. f_equal. generalize (m - length c)%nat. intros k. induction k; cbn; congruence. }
    rewrite Q. rewrite (holds_det F _ _ _ _ (fun y => e_fold_w F (c ++ repeat 0 (m - length c)) l1 y)).
    rewrite holds_bind. split.
    - intros (x & Hx & H). apply IH in Hx. subst x. apply ret_w in H. exact H.
    - intros ->. eexists. split; [apply IH; reflexivity|]. apply ret_w. reflexivity.
  Qed.
  Lemma tl_groups_s m (l1 : F) : forall cs st, (forall c, In c cs -> (length c <= m)%nat) ->
    simulate (tl_groups 1 true m (hon 0) (hon l1) (map (map hon) cs)) st =
    Some (map hon (map (fun c => peval (rev (c ++ repeat 0 (m - length c))) l1) cs), bump st 0 (length cs * (m - 1)) (2 * (length cs * (m - 1)))).
  Proof.
    induction cs as [|c cs IH]; intros st Hm; cbn [tl_groups map].
    - cbn [simulate length]. destruct st; unfold bump; cbn. repeat f_equal; lia.
    - assert (Q : map hon c ++ repeat (hon 0) (m - length (map hon c)) = map hon (c ++ repeat 0 (m - length c))).
      { rewrite map_app, map_length. f_equal. generalize (m - length c)%nat. intros k. induction k; cbn; congruence. }
      rewrite Q. rewrite sim_bind, e_fold_s, sim_bind, IH by (intros; apply Hm; right; assumption). cbn [simulate].
      rewrite bump_bump', app_length, repeat_length. assert (length c <= m)%nat by (apply Hm; left; reflexivity).
      f_equal. f_equal. cbn [length]. f_equal; nia.
  Qed.
  Lemma peval_rev_hfold (l : list F) (s : F) : peval (rev l) s = hfold (length l) s (fun i => nth i l 0).
  Proof.
    rewrite peval_fsum. rewrite rev_length. unfold hfold. rewrite <- fsum_rev. apply fsum_ext. intros i Hi.
    rewrite rev_nth by lia. replace (length l - S (length l - 1 - i))%nat with i by lia. ring.
  Qed.
  (** value of the two-layer evaluation fold *)
  Definition two_layer (M N : nat) (l : list F) (s1 s2 : F) : F :=
    hfold N s2 (fun g => hfold M s1 (fun i => nth (g * M + i) l 0)).
  Lemma chunks_map {A B : Type} (f : A -> B) m : forall fuel l, chunks_go fuel m (map f l) = map (map f) (chunks_go fuel m l).
  Proof.
    induction fuel as [|n IH]; intros l; [reflexivity|]. destruct l as [|x l]; [reflexivity|]. cbn [map chunks_go].
    change (f x :: map f l) with (map f (x :: l)). rewrite firstn_map, skipn_map, IH. reflexivity.
  Qed.
  Lemma two_layer_val (M N : nat) (l : list F) (s1 s2 : F) : (0 < M)%nat -> (length l <= M * N)%nat ->
    let cs := chunks_go (length l) M l in
    let vs := map (fun c => peval (rev (c ++ repeat 0 (M - length c))) s1) cs in
    length (vs ++ repeat 0 (N - length vs)) = N /\ peval (rev (vs ++ repeat 0 (N - length vs))) s2 = two_layer M N l s1 s2.
  Proof.
    intros HM HL cs vs. assert (Lc : (length cs <= N)%nat) by (apply (len_chunks M HM (length l) l (le_n _)); lia).
    assert (Lv : length vs = length cs) by (unfold vs; apply map_length).
    assert (LL : length (vs ++ repeat 0 (N - length vs)) = N) by (rewrite app_length, repeat_length; lia).
    split; [exact LL|]. rewrite peval_rev_hfold, LL. apply hfold_ext. intros g Hg. rewrite nth_pad.
    destruct (chunk_pad M l (0 : F) g HM) as (_ & L2 & V2). fold cs in L2, V2.
    destruct (Nat.lt_ge_cases g (length cs)) as [G|G].
    - unfold vs. set (f := fun c : list F => _). rewrite nth_indep with (d' := f []) by (rewrite map_length; exact G). rewrite (map_nth f). unfold f.
      rewrite peval_rev_hfold, L2. apply hfold_ext. intros i Hi. apply V2. exact Hi.
    - rewrite nth_overflow by lia. assert ((length l <= g * M)%nat) by (apply (len_chunks M HM (length l) l (le_n _)); exact G).
      symmetry. apply fsum_zero. intros i Hi. rewrite nth_overflow by lia. ring.
  Qed.
  Lemma fold_two_layer_w (M N : nat) (l : list F) (s1 s2 : F) r : (0 < M)%nat -> (length l <= M * N)%nat ->
    (holds (fold_two_layer 1 false M N (map wir l) (wir s1) (wir s2)) r <-> r = wir (two_layer M N l s1 s2)).
  Proof.
    intros HM HL. destruct (two_layer_val M N l s1 s2 HM HL) as (_ & V). unfold fold_two_layer. rewrite e_zero_bw.
    unfold chunks. destruct (Nat.eqb_spec M 0); [lia|]. rewrite map_length, chunks_map.
    rewrite (holds_det F _ _ _ _ (fun y => tl_groups_w M s1 (chunks_go (length l) M l) y)). rewrite <- V.
    set (vs := map _ (chunks_go (length l) M l)).
    replace (map wir vs ++ repeat (wir 0) (N - length (map wir vs))) with (map wir (vs ++ repeat 0 (N - length vs))).
    - apply e_fold_w.
    - rewrite map_app, map_length. f_equal. generalize (N - length vs)%nat. intros k. induction k; cbn; congruence.
  Qed.
  Lemma fold_two_layer_s (M N : nat) (l : list F) (s1 s2 : F) st : (0 < M)%nat -> (length l <= M * N)%nat ->
    exists k, simulate (fold_two_layer 1 true M N (map hon l) (hon s1) (hon s2)) st = Some (hon (two_layer M N l s1 s2), bump st 0 k (2 * k)).
  Proof.
    intros HM HL. destruct (two_layer_val M N l s1 s2 HM HL) as (_ & V). unfold fold_two_layer. rewrite sim_bind, e_zero_s.
    unfold chunks. destruct (Nat.eqb_spec M 0); [lia|]. rewrite map_length, chunks_map. rewrite sim_bind, tl_groups_s.
    - rewrite <- V. set (vs := map _ (chunks_go (length l) M l)).
      replace (map hon vs ++ repeat (hon 0) (N - length (map hon vs))) with (map hon (vs ++ repeat 0 (N - length vs))).
      + rewrite e_fold_s. rewrite bump_bump'. eexists. f_equal. f_equal. f_equal. rewrite Nat.mul_add_distr_l. reflexivity.
      + rewrite map_app, map_length. f_equal. generalize (N - length vs)%nat. intros k. induction k; cbn; congruence.
    - intros c Hc. apply In_nth with (d := []) in Hc. destruct Hc as (g & _ & <-). apply (chunk_pad M l (0 : F) g HM).
  Qed.
End FoldC.
Arguments two_layer {F}. Arguments hzs {F}. Arguments hzv {F}. Arguments orz {F}.
