(** Soundness of claim folding, two-layer composition, commitment tracking. *)
From Coq Require Import List Arith Bool Lia Ring Field.
From Verif Require Import FieldDef ModDef ArithModel ArithSpec SparseModel SparseSpec SparseProofs SparseProofs2 GadgetModel GadgetSpec GadgetProofs PrimModel
  FoldModel FoldSpec FoldProofs FoldProofs2.
Import ListNotations.
Local Open Scope nat_scope.

Section Sound.
  Variable F : Field.
  Add Field FFfs : (f_theory F).
  Open Scope f_scope.

  Lemma weigh_sub n (s t : F) (m m' : nat -> nat -> F) : weigh n s t m - weigh n s t m' = weigh n s t (fun i j => m i j - m' i j).
  Proof.
    unfold weigh. rewrite <- fsum_sub. apply fsum_ext. intros i _. rewrite <- fsum_sub. apply fsum_ext. intros j _. ring.
  Qed.
  Lemma weigh_ext n (s t : F) (m m' : nat -> nat -> F) : (forall i j, (i < n)%nat -> (j < n)%nat -> m i j = m' i j) -> weigh n s t m = weigh n s t m'.
  Proof. intros H. apply fsum_ext. intros i Hi. apply fsum_ext. intros j Hj. rewrite H by assumption. reflexivity. Qed.
  Lemma weigh_diag n (mu nu : F) (d : nat -> F) : mu <> 0 ->
    weigh n (finv mu) (mu * nu) (fun i j => if (i =? j)%nat then d i else 0) = hfold n nu d.
  Proof.
    intros Hm. unfold weigh, hfold. apply fsum_ext. intros i Hi. rewrite (fsum_single F n i).
    - rewrite Nat.eqb_refl, fpow_mul_base. transitivity ((finv mu ^ (n - 1 - i) * mu ^ (n - 1 - i)) * nu ^ (n - 1 - i) * d i); [ring|].
      rewrite fpow_inv_mul by exact Hm. ring.
    - exact Hi.
    - intros j Hj Hne. destruct (Nat.eqb_spec i j); [lia|]. ring.
  Qed.
  (** a weighted sum vanishing on a grid comes from the zero matrix *)
  Lemma weigh_zero n (m : nat -> nat -> F) (mus : list F) : NoDup mus -> (n <= length mus)%nat ->
    (forall mu, In mu mus -> mu <> 0 /\ exists nus, NoDup nus /\ (n <= length nus)%nat /\
        forall nu, In nu nus -> weigh n (finv mu) (mu * nu) m = 0) ->
    forall i j, (i < n)%nat -> (j < n)%nat -> m i j = 0.
  Proof.
    intros Hnd Hl H i j Hi Hj.
    assert (C : forall mu, In mu mus -> hfold n (finv mu) (fun i => m i j) = 0).
    { intros mu Hmu. destruct (H mu Hmu) as (Hm & nus & Nn & Ln & Hz).
      assert (Q := coeffs_zero F n (fun k => fsum n (fun i => finv mu ^ (n - 1 - i) * (mu ^ k * m i (n - 1 - k)%nat))) nus Nn Ln).
      specialize (Q ltac:(intros nu Hnu; rewrite <- (Hz nu Hnu); unfold weigh; rewrite (fsum_swap F);
        rewrite <- fsum_rev; apply fsum_ext; intros k Hk; rewrite <- fsum_scale_r; apply fsum_ext; intros a Ha;
        replace (n - 1 - (n - 1 - k))%nat with k by lia; rewrite fpow_mul_base; ring) (n - 1 - j)%nat ltac:(lia)).
      cbv beta in Q. apply (fmul_cancel_l F (mu ^ (n - 1 - j))); [apply fpow_nonzero; exact Hm|].
      transitivity (0 : F); [|ring]. rewrite <- Q. unfold hfold. rewrite <- fsum_scale. apply fsum_ext. intros a Ha.
      replace (n - 1 - (n - 1 - j))%nat with j by lia. ring. }
    assert (Q := coeffs_zero F n (fun k => m (n - 1 - k)%nat j) (map finv mus)).
    replace i with (n - 1 - (n - 1 - i))%nat by lia. apply Q; [| |clear Q|lia].
    - clear - Hnd H. induction mus as [|a mus IH]; [constructor|]. inversion Hnd as [|x l Hni Hn]; subst. cbn [map]. constructor.
      + intros Hin. apply in_map_iff in Hin. destruct Hin as (b & E & Hb). apply Hni. replace a with b; [exact Hb|].
        destruct (H a (or_introl eq_refl)) as (Ha & _). destruct (H b (or_intror Hb)) as (Hb0 & _).
        assert (A : a * finv a = 1) by (apply finv_r; exact Ha). assert (B : b * finv b = 1) by (apply finv_r; exact Hb0).
        transitivity (b * (a * finv a)); [rewrite A; ring|]. rewrite <- E. transitivity ((b * finv b) * a); [ring|]. rewrite B. ring.
      + apply IH; [exact Hn|]. intros mu Hmu. apply H. right. exact Hmu.
    - rewrite map_length. exact Hl.
    - intros r Hr. apply in_map_iff in Hr. destruct Hr as (mu & <- & Hmu). rewrite <- (C mu Hmu). unfold hfold.
      rewrite <- fsum_rev. apply fsum_ext. intros k Hk. replace (n - 1 - (n - 1 - k))%nat with k by lia. ring.
  Qed.

  Variable NC : nat.
  Local Notation poly := (poly F).
  Local Notation wfp := (wf 0 NC).

  (** ** one layer *)
  Lemma one_layer n (a b : list poly) (s t : F) : length a = n -> length b = n -> Forall wfp a -> Forall wfp b ->
    exists A B, g_fold (poly_foldable NC) a s = Some A /\ g_fold (poly_foldable NC) b t = Some B /\ wfp A /\ wfp B /\
      p_revdot NC A B = weigh n s t (fun i j => rdot NC (nth i a []) (nth j b [])).
  Proof.
    intros La Lb Wa Wb. destruct (fold_poly_ok F NC a s Wa) as (A & EA & WA & CA). destruct (fold_poly_ok F NC b t Wb) as (B & EB & WB & CB).
    exists A, B. repeat split; auto. rewrite revdot_rdot by assumption. rewrite La in CA. rewrite Lb in CB.
    apply (rdot_hfold F NC n s t (fun i => nth i a []) (fun j => nth j b [])); assumption.
  Qed.
  Lemma rdot_ext (p q p' q' : poly) : (forall k, coeff_at p k = coeff_at p' k) -> (forall k, coeff_at q k = coeff_at q' k) -> rdot NC p q = rdot NC p' q'.
  Proof. intros A B. apply fsum_ext. intros k _. rewrite A, B. reflexivity. Qed.
  (** with error terms equal to the off-diagonal products, only the claims can differ *)
  Lemma dev_diag n (mu nu : F) (errs ky : list F) (m : nat -> nat -> F) : mu <> 0 ->
    (forall i j, (i < n)%nat -> (j < n)%nat -> i <> j -> nth (err_index n i j) errs 0 = m i j) ->
    weigh n (finv mu) (mu * nu) (entry n errs ky) - weigh n (finv mu) (mu * nu) m = hfold n nu (fun i => nth i ky 0 - m i i).
  Proof.
    intros Hm He. rewrite weigh_sub. rewrite <- (weigh_diag n mu nu _ Hm). apply weigh_ext. intros i j Hi Hj. unfold entry.
    destruct (Nat.eqb_spec i j) as [->|E]; [reflexivity|]. rewrite He by assumption. ring.
  Qed.

  (** ** two layers *)
  Definition group {T : Type} (M g : nat) (l : list T) (d : T) : list T := map (fun i => nth (g * M + i) l d) (seq 0 M).
  Lemma group_nth {T : Type} M g (l : list T) d i : (i < M)%nat -> nth i (group M g l d) d = nth (g * M + i) l d.
  Proof.
    intros Hi. unfold group. rewrite nth_indep with (d' := nth (g * M + 0) l d) by (rewrite map_length, seq_length; exact Hi).
    rewrite (map_nth (fun i => nth (g * M + i) l d)), seq_nth by exact Hi. reflexivity.
  Qed.
  Lemma two_layers M N (a b : list poly) (s t s' t' : F) : (0 < M)%nat -> (length a <= M * N)%nat -> (length b <= M * N)%nat ->
    Forall wfp a -> Forall wfp b ->
    exists A1 B1 A B, fold_inner (poly_foldable NC) M N a s = Some A1 /\ fold_inner (poly_foldable NC) M N b t = Some B1 /\
      length A1 = N /\ length B1 = N /\ Forall wfp A1 /\ Forall wfp B1 /\
      fold_outer (poly_foldable NC) A1 s' = Some A /\ fold_outer (poly_foldable NC) B1 t' = Some B /\ wfp A /\ wfp B /\
      (forall g, rdot NC (nth g A1 []) (nth g B1 []) = weigh M s t (fun i j => rdot NC (nth (g * M + i) a []) (nth (g * M + j) b []))) /\
      p_revdot NC A B = weigh N s' t' (fun g h => rdot NC (nth g A1 []) (nth h B1 [])).
  Proof.
    intros HM La Lb Wa Wb. destruct (fold_inner_ok F NC M N a s HM La Wa) as (A1 & EA1 & LA1 & WA1 & CA1).
    destruct (fold_inner_ok F NC M N b t HM Lb Wb) as (B1 & EB1 & LB1 & WB1 & CB1).
    destruct (one_layer N A1 B1 s' t' LA1 LB1 WA1 WB1) as (A & B & EA & EB & WA & WB & V).
    exists A1, B1, A, B. unfold fold_outer. do 10 (split; [assumption|]). split; [|exact V].
    intros g. apply (rdot_hfold F NC M s t (fun i => nth (g * M + i) a []) (fun j => nth (g * M + j) b [])); intros k; [apply CA1|apply CB1].
  Qed.

  (** evaluation of the two-layer fold *)
  Lemma eval_hfold n (s z : F) (a : nat -> poly) (A : poly) : wfp A -> (forall i, wfp (a i)) ->
    (forall k, coeff_at A k = hfold n s (fun i => coeff_at (a i) k)) -> p_eval NC A z = hfold n s (fun i => p_eval NC (a i) z).
  Proof.
    intros WA Wa H. rewrite (SparseProofs.eval_ok F NC A z WA). unfold hfold in *.
    rewrite (fsum_ext F NC _ (fun k => fsum n (fun i => s ^ (n - 1 - i) * (coeff_at (a i) k * z ^ k)))).
    - rewrite (fsum_swap F). apply fsum_ext. intros i _. rewrite (SparseProofs.eval_ok F NC (a i) z (Wa i)), <- fsum_scale. reflexivity.
    - intros k _. rewrite H, <- fsum_scale_r. apply fsum_ext. intros i _. ring.
  Qed.
  Lemma eval_two_layer M N (a : list poly) (s s' z : F) A1 A : (0 < M)%nat -> (length a <= M * N)%nat -> Forall wfp a ->
    fold_inner (poly_foldable NC) M N a s = Some A1 -> fold_outer (poly_foldable NC) A1 s' = Some A ->
    p_eval NC A z = two_layer M N (map (fun p => p_eval NC p z) a) s s'.
  Proof.
    intros HM La Wa E1 E. destruct (fold_inner_ok F NC M N a s HM La Wa) as (A1' & EA1 & LA1 & WA1 & CA1).
    assert (A1' = A1) by congruence. subst A1'. destruct (fold_poly_ok F NC A1 s' WA1) as (A' & EA & WA & CA).
    unfold fold_outer in E. assert (A' = A) by congruence. subst A'. rewrite LA1 in CA.
    rewrite (eval_hfold N s' z (fun g => nth g A1 []) A WA (fun g => wf_nth F NC A1 g WA1) CA). unfold two_layer. apply hfold_ext. intros g _.
    rewrite (eval_hfold M s z (fun i => nth (g * M + i) a []) (nth g A1 []) (wf_nth F NC A1 g WA1) (fun i => wf_nth F NC a (g * M + i) Wa) (CA1 g)).
    apply hfold_ext. intros i _.
    assert (Z0 : p_eval NC ([] : poly) z = 0) by (rewrite (SparseProofs.eval_ok F NC [] z I); apply fsum_zero; intros k _; rewrite coeff_nil; ring).
    rewrite <- Z0, (map_nth (fun p => p_eval NC p z)). reflexivity.
  Qed.

  (** ** commitment tracking *)
  Section Track.
    Variables (K : Type) (keqb : K -> K -> bool) (HK : forall a b, keqb a b = true <-> a = b).
    Variable src : K -> poly. (* the polynomial behind each key *)
    Definition tcoeff (terms : list (K * F)) (k : nat) : F := lsum (map (fun kc => snd kc * coeff_at (src (fst kc)) k) terms).
    Definition tracks (t : tracked F K) : Prop := wfp (fst t) /\ forall k, coeff_at (fst t) k = tcoeff (snd t) k.
    Lemma tcoeff_app a b k : tcoeff (a ++ b) k = tcoeff a k + tcoeff b k.
    Proof. unfold tcoeff. rewrite map_app. apply lsum_app. Qed.
    Lemma tcoeff_cons kc a k : tcoeff (kc :: a) k = snd kc * coeff_at (src (fst kc)) k + tcoeff a k.
    Proof. reflexivity. Qed.
    Lemma track_default : tracks (fd_default (tracked_foldable (K := K) NC)).
    Proof. split; [exact I|]. intros k. reflexivity. Qed.
    Lemma track_single key : wfp (src key) -> tracks (t_single (src key) key).
    Proof. intros W. split; [exact W|]. intros k. cbn [fst snd t_single]. rewrite tcoeff_cons. cbn [fst snd]. change (tcoeff [] k) with (0 : F). ring. Qed.
    Lemma track_scale c t : tracks t -> tracks (t_scale c t).
    Proof.
      destruct t as [p terms]. intros (W & H). unfold t_scale. cbn [fst snd] in *. destruct (scale_ok F 0 NC c p W) as (W' & C).
      split; [exact W'|]. cbn [fst snd]. intros k. rewrite C, H. clear.
      induction terms as [|kc l IH]; [change (c * (0 : F) = 0); ring|]. cbn [map]. rewrite !tcoeff_cons, <- IH. cbn [fst snd]. ring.
    Qed.
    Lemma track_add t u : tracks t -> tracks u -> exists r, t_add NC t u = Some r /\ tracks r.
    Proof.
      destruct t as [pt tt], u as [pu tu]. intros (Wt & Ht) (Wu & Hu). unfold t_add. cbn [fst snd] in *. destruct (add_ok F NC pt pu Wt Wu) as (p & -> & Wp & C). cbn [option_map].
      eexists. split; [reflexivity|]. split; [exact Wp|]. cbn [fst snd]. intros k. rewrite C, Ht, Hu, tcoeff_app. reflexivity.
    Qed.
    Lemma track_fold ts s : Forall tracks ts -> exists r, g_fold (tracked_foldable NC) ts s = Some r /\ tracks r.
    Proof.
      unfold g_fold. generalize track_default. generalize (fd_default (tracked_foldable (F := F) (K := K) NC)). intros acc Hacc Hts. revert acc Hacc.
      induction Hts as [|t ts Ht Hts IH]; intros acc Hacc; cbn [fold_left]; [eauto|].
      cbn [fd_add fd_scale tracked_foldable]. destruct (track_add _ t (track_scale s acc Hacc) Ht) as (r & -> & Hr). apply IH. exact Hr.
    Qed.
    Lemma track_sum atoms : atoms <> [] -> (forall kp, In kp atoms -> snd kp = src (fst kp) /\ wfp (snd kp)) ->
      exists r, t_sum NC atoms = Some r /\ tracks r.
    Proof.
      intros Hn Ha. destruct atoms as [|[k0 p0] atoms]; [congruence|]. clear Hn. unfold t_sum. cbn [map snd sum_polynomials].
      assert (Q : forall l acc terms, wfp acc -> (forall k, coeff_at acc k = tcoeff terms k) ->
        (forall kp, In kp l -> snd kp = src (fst kp) /\ wfp (snd kp)) ->
        exists r, fold_left (fun acc rx => match acc with None => None | Some s => p_add NC s rx end) (map snd l) (Some acc) = Some r /\ wfp r /\
          forall k, coeff_at r k = tcoeff (terms ++ map (fun a => (fst a, 1)) l) k).
      { induction l as [|[kk pp] l IH]; intros acc terms W H Hl; cbn [map fold_left].
        - exists acc. rewrite app_nil_r. auto.
        - destruct (Hl (kk, pp) (or_introl eq_refl)) as (E & Wp). cbn [fst snd] in *. destruct (add_ok F NC acc pp W Wp) as (r & -> & Wr & C).
          destruct (IH r (terms ++ [(kk, 1)]) Wr) as (r2 & E2 & W2 & C2).
          + intros k. rewrite C, H, tcoeff_app, tcoeff_cons, E. cbn [fst snd]. change (tcoeff [] k) with (0 : F). ring.
          + intros kp Hkp. apply Hl. right. exact Hkp.
          + exists r2. rewrite <- app_assoc in C2. auto. }
      destruct (Ha (k0, p0) (or_introl eq_refl)) as (E & Wp). cbn [fst snd] in *.
      destruct (Q atoms p0 [(k0, 1)] Wp) as (r & Er & Wr & Cr).
      - intros k. rewrite tcoeff_cons, E. cbn [fst snd]. change (tcoeff [] k) with (0 : F). ring.
      - intros kp Hkp. apply Ha. right. exact Hkp.
      - rewrite Er. cbn [option_map]. eexists. split; [reflexivity|]. split; assumption.
    Qed.
    Lemma track_inner M N ts s : (0 < M)%nat -> (length ts <= M * N)%nat -> Forall tracks ts ->
      exists rs, fold_inner (tracked_foldable NC) M N ts s = Some rs /\ length rs = N /\ Forall tracks rs.
    Proof.
      intros HM HL Ht. unfold fold_inner. destruct (Nat.ltb_spec (M * N) (length ts)); [lia|]. unfold chunks.
      destruct (Nat.eqb_spec M 0); [lia|]. set (cs := chunks_go (length ts) M ts).
      assert (Lc : (length cs <= N)%nat) by (apply (len_chunks M HM (length ts) ts (le_n _)); lia).
      set (dd := fd_default (tracked_foldable (F := F) (K := K) NC)).
      assert (CW : Forall (fun c => Forall tracks (c ++ repeat dd (M - length c))) cs).
      { apply Forall_forall. intros c Hc. apply Forall_app. split.
        - apply In_nth with (d := []) in Hc. destruct Hc as (g & _ & <-). apply Forall_forall. intros x Hx.
          apply In_nth with (d := dd) in Hx. destruct Hx as (i & Hi & <-).
          destruct (chunk_pad M ts dd g HM) as (L1 & _ & V). fold cs in L1, V.
          rewrite <- (nth_pad (nth g cs []) (M - length (nth g cs [])) dd), V by lia.
          destruct (Nat.lt_ge_cases (g * M + i) (length ts)) as [X|X].
          + rewrite Forall_forall in Ht. apply Ht. apply nth_In. exact X.
          + rewrite nth_overflow by exact X. apply track_default.
        - apply Forall_forall. intros x Hx. apply repeat_spec in Hx. subst x. apply track_default. }
      assert (Q : forall l, Forall (fun c => Forall tracks (c ++ repeat dd (M - length c))) l ->
        exists rs, opt_all (fun c => g_fold (tracked_foldable NC) (c ++ repeat dd (M - length c)) s) l = Some rs /\ length rs = length l /\ Forall tracks rs).
      { induction l as [|c l IH]; intros Hl; cbn [opt_all]; [exists []; auto|]. inversion Hl as [|x y Hc Hl']; subst.
        destruct (track_fold _ s Hc) as (r & -> & Hr). destruct (IH Hl') as (rs & -> & Lr & Fr). cbn [option_map].
        exists (r :: rs). cbn [length]. auto. }
      destruct (Q cs CW) as (rs & -> & Lr & Fr). rewrite fixed_ok, take_pad by lia. rewrite app_length, repeat_length.
      destruct (Nat.eqb_spec (length rs + (N - length rs)) N); [|lia]. eexists. split; [reflexivity|].
      split; [rewrite app_length, repeat_length; lia|]. apply Forall_app. split; [exact Fr|].
      apply Forall_forall. intros x Hx. apply repeat_spec in Hx. subst x. apply track_default.
    Qed.
    Lemma add_entry_coeff es key c k : tcoeff (add_entry keqb es key c) k = tcoeff es k + c * coeff_at (src key) k.
    Proof.
      induction es as [|[kk d] es IH]; cbn [add_entry].
      - rewrite tcoeff_cons. cbn [fst snd]. change (tcoeff [] k) with (0 : F). ring.
      - destruct (keqb kk key) eqn:E.
        + apply HK in E. subst kk. rewrite !tcoeff_cons. cbn [fst snd]. ring.
        + rewrite !tcoeff_cons, IH. cbn [fst snd]. ring.
    Qed.
    Lemma dedup_coeff terms k : tcoeff (dedup keqb terms) k = tcoeff terms k.
    Proof.
      unfold dedup. assert (Q : forall ts es, tcoeff (fold_left (fun es kc => add_entry keqb es (fst kc) (snd kc)) ts es) k = tcoeff es k + tcoeff ts k).
      { induction ts as [|kc ts IH]; intros es; cbn [fold_left]; [change (tcoeff [] k) with (0 : F); ring|].
        rewrite IH, add_entry_coeff, tcoeff_cons. ring. }
      rewrite Q. change (tcoeff [] k) with (0 : F). ring.
    Qed.
    Lemma add_entry_nodup (es : list (K * F)) key c : NoDup (map fst es) -> NoDup (map fst (add_entry keqb es key c)) /\
      forall x, In x (map fst (add_entry keqb es key c)) <-> x = key \/ In x (map fst es).
    Proof.
      induction es as [|[kk d] es IH]; intros Hn; cbn [add_entry map fst].
      - split; [repeat constructor; intros []|]. intros x. cbn [In]. intuition congruence.
      - inversion Hn as [|a l Hni Hn']; subst. destruct (keqb kk key) eqn:E; cbn [map fst].
        + apply HK in E. subst kk. split; [exact Hn|]. intros x. cbn [In]. intuition congruence.
        + destruct (IH Hn') as (A & B). assert (kk <> key) by (intros ->; assert (keqb key key = true) by (apply HK; reflexivity); congruence).
          split.
          * constructor; [|exact A]. rewrite B. intros [->|X]; [congruence|contradiction].
          * intros x. cbn [In]. rewrite B. tauto.
    Qed.
    Lemma dedup_nodup (terms : list (K * F)) : NoDup (map fst (dedup keqb terms)) /\ forall x, In x (map fst (dedup keqb terms)) <-> In x (map fst terms).
    Proof.
      unfold dedup. assert (Q : forall ts es : list (K * F), NoDup (map fst es) ->
        NoDup (map fst (fold_left (fun es kc => add_entry keqb es (fst kc) (snd kc)) ts es)) /\
        forall x, In x (map fst (fold_left (fun es kc => add_entry keqb es (fst kc) (snd kc)) ts es)) <-> In x (map fst es) \/ In x (map fst ts)).
      { induction ts as [|[k c] ts IH]; intros es Hn; cbn [fold_left map fst snd].
        - split; [exact Hn|]. intros x. cbn [In]. tauto.
        - destruct (add_entry_nodup es k c Hn) as (A & B). destruct (IH _ A) as (C & D). split; [exact C|]. intros x. rewrite D, B. cbn [In].
          intuition congruence. }
      destruct (Q terms [] ltac:(constructor)) as (A & B). split; [exact A|]. intros x. rewrite B. cbn [map In]. tauto.
    Qed.

    (** commitments *)
    Variables (M : FMod F) (gens : list M) (HG : (NC <= length gens)%nat).
    Definition com (cs : nat -> F) : M := msum NC (fun k => mscale (cs k) (nth k gens m0)).
    Lemma com_ext f g : (forall k, f k = g k) -> com f = com g.
    Proof. intros H. apply msum_ext. intros i _. rewrite H. reflexivity. Qed.
    Lemma resolve_com (get : K -> M) terms : (forall key, In key (map fst terms) -> get key = com (coeff_at (src key))) ->
      fold_right (fun kc acc => madd (mscale (snd kc) (get (fst kc))) acc) m0 terms = com (tcoeff terms).
    Proof.
      induction terms as [|kc terms IH]; intros H; cbn [fold_right].
      - symmetry. apply msum_zero. intros i _. change (tcoeff [] i) with (0 : F). apply mscale_0.
      - rewrite IH by (intros key Hk; apply H; right; exact Hk). rewrite (H (fst kc)) by (left; reflexivity). unfold com.
        rewrite <- msum_scale, <- msum_add. apply msum_ext. intros i _. rewrite mscale_mul, <- mscale_addl. reflexivity.
    Qed.
    Lemma resolve_ok (get : K -> M) t : (forall key, In key (map fst (snd t)) -> wfp (src key) /\ p_commit NC gens (src key) = Some (get key)) -> tracks t ->
      p_commit NC gens (fst t) = Some (resolve keqb get (snd t)).
    Proof.
      intros Hget (W & C). rewrite (commit_ok F NC M gens (fst t) W HG). f_equal. unfold resolve. rewrite resolve_com.
      - apply msum_ext. intros i _. rewrite dedup_coeff, C. reflexivity.
      - intros key Hin. destruct (dedup_nodup (snd t)) as (_ & D). apply D in Hin. destruct (Hget key Hin) as (Ws & Ec).
        rewrite (commit_ok F NC M gens (src key) Ws HG) in Ec. assert (X : forall u v : M, Some u = Some v -> v = u) by (intros; congruence).
        exact (X _ _ Ec).
    Qed.
  End Track.
End Sound.
