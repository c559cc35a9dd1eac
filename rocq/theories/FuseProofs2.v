(** The prover's step: the children's claims, folded. *)
From Coq Require Import List Arith NArith Bool Lia Permutation Ring Field.
From Verif Require Import FieldDef ModDef ArithModel ArithSpec ArithProofs FFTModel SparseModel SparseSpec SparseProofs GadgetModel FoldModel FoldSpec FoldProofs FoldProofs2 FoldProofs3 Props_Fold
  ClaimModel RegModel PcdModel PcdSpec PcdProofs PcdProofs2 Props_Pcd RecModel RecSpec VerifyModel VerifySpec VerifyProofs VerifyProofs2 FuseModel FuseSpec.
Import ListNotations.
Local Open Scope nat_scope.

Lemma some_eq {A : Type} (o : option A) x y : o = Some x -> o = Some y -> x = y.
Proof. congruence. Qed.

Section Track.
  Variable F : Field.
  Add Field FFu3 : (f_theory F).
  Open Scope f_scope.
  Local Notation poly := (poly F).
  (** ** the polynomials of tracked folds *)
  Section K.
    Variable (K : Type) (NC : nat).
    Lemma g_fold_fst (ts : list (tracked F K)) (s : F) r : g_fold (tracked_foldable NC) ts s = Some r -> g_fold (poly_foldable NC) (map fst ts) s = Some (fst r).
    Proof.
      unfold g_fold. cbn [fd_default fd_scale fd_add tracked_foldable poly_foldable].
      assert (G : forall ts (acc : option (tracked F K)) r,
        fold_left (fun acc t => match acc with None => None | Some a => t_add NC (t_scale s a) t end) ts acc = Some r ->
        fold_left (fun acc t => match acc with None => None | Some a => p_add NC (p_scale s a) t end) (map fst ts) (option_map fst acc) = Some (fst r)).
      { induction ts0 as [|t ts0 IH]; intros acc r0 E; cbn [map fold_left] in *; [now rewrite E|].
        apply IH in E. rewrite <- E. f_equal. destruct acc as [[q d]|]; [|reflexivity]. cbn [option_map].
        unfold t_add, t_scale. cbn [fst snd]. now destruct (p_add NC (p_scale s q) (fst t)). }
      intros E. apply (G ts (Some (p_new, []))) in E. exact E.
    Qed.
    Lemma chunks_go_map {A B : Type} (f : A -> B) m : forall fuel l, chunks_go fuel m (map f l) = map (map f) (chunks_go fuel m l).
    Proof.
      induction fuel as [|fuel IH]; intros [|x l]; try reflexivity. cbn [chunks_go map]. f_equal; [exact (firstn_map f m (x :: l))|].
      rewrite <- IH. f_equal. exact (skipn_map f m (x :: l)).
    Qed.
    Lemma map_repeat {A B : Type} (f : A -> B) x m : map f (repeat x m) = repeat (f x) m.
    Proof. induction m; cbn; congruence. Qed.
    Lemma fixed_map {A B : Type} (f : A -> B) L l v : fixed L l = Some v -> fixed L (map f l) = Some (map f v).
    Proof. rewrite !fixed_ok, map_length. destruct (Nat.eqb_spec (length l) L); congruence. Qed.
    Lemma fold_inner_fst M N (ts : list (tracked F K)) s rs : fold_inner (tracked_foldable NC) M N ts s = Some rs ->
      fold_inner (poly_foldable NC) M N (map fst ts) s = Some (map fst rs).
    Proof.
      unfold fold_inner, tracked in *. rewrite map_length. destruct (M * N <? length ts)%nat; [discriminate|]. unfold chunks. destruct (M =? 0)%nat; [discriminate|].
      rewrite map_length, chunks_go_map. generalize (chunks_go (length ts) M ts). intros cs.
      destruct (opt_all _ cs) as [xs|] eqn:E; [|discriminate]. intros Ef.
      assert (G : opt_all (fun c => g_fold (poly_foldable NC) (c ++ repeat (fd_default (poly_foldable NC)) (M - length c)) s) (map (map fst) cs) = Some (map fst xs)).
      { clear Ef. revert xs E. clear. induction cs as [|c cs IH]; intros xs E; cbn [opt_all map] in *; [injection E as <-; reflexivity|].
        match type of E with match ?o with _ => _ end = _ => destruct o as [y|] eqn:Ey; [|discriminate] end.
        destruct (opt_all _ cs) as [ys|]; [|discriminate]. cbn [option_map] in E. injection E as <-. apply g_fold_fst in Ey.
        rewrite map_app, map_repeat in Ey.
        assert (Ey' : g_fold (poly_foldable NC) (map fst c ++ repeat (fd_default (poly_foldable NC)) (M - length (map fst c))) s = Some (fst y)) by (rewrite map_length; exact Ey).
        rewrite Ey', (IH ys eq_refl). reflexivity. }
      rewrite G. apply (fixed_map fst) in Ef. rewrite <- firstn_map, map_app, map_repeat in Ef. exact Ef.
    Qed.
  End K.

  Lemma nth_map_seqg (f : nat -> F) a m i : (i < m)%nat -> nth i (map f (seq a m)) 0 = f (a + i)%nat.
  Proof. intros Hi. rewrite (nth_indep _ _ (f O)) by (now rewrite map_length, seq_length). rewrite map_nth, seq_nth by exact Hi. reflexivity. Qed.

  (** ** the claims of two children *)
  Section Two.
    Variables (n : nat) (z : F) (cy : nat -> option poly) (sy : nat -> poly).
    Local Notation NC := (4 * n)%nat.
    Hypothesis Hint : forall i, (i < 13)%nat -> cy i = Some (sy i) /\ wf 0 NC (sy i).
    Variables (fl fr : rxcomp -> poly) (il ir : nat).
    Hypotheses (Wl : forall c, wf 0 NC (fl c)) (Wr : forall c, wf 0 NC (fr c)).
    Hypotheses (Cl : cy il = Some (sy il) /\ wf 0 NC (sy il)) (Cr : cy ir = Some (sy ir) /\ wf 0 NC (sy ir)).
    Definition two_src (k : fold_key) : poly := if fst k then fr (snd k) else fl (snd k).
    Definition coeffs_of_claim (c : claim poly nat) (ab : poly * poly) : Prop :=
      wf 0 NC (fst ab) /\ wf 0 NC (snd ab) /\ (forall j, coeff_at (fst ab) j = a_coeff z c j) /\ (forall j, coeff_at (snd ab) j = b_coeff n z sy c j).
    Definition plain (tb : tracked F fold_key * poly) : poly * poly := (fst (fst tb), snd tb).
    Lemma tracked_claims claims :
      fb_build n NC z cy (two_source (fun c => ((false, c), fl c)) (fun c => ((true, c), fr c)) il ir) = Some claims ->
      Forall (tracks F NC fold_key two_src) (map fst claims) /\ Forall2 coeffs_of_claim (build_claims (two_source fl fr il ir)) (map plain claims).
    Proof.
      intros E. set (vs := [mk_pview (fun c => ((false, c), fl c)) il tt tt tt tt; mk_pview (fun c => ((true, c), fr c)) ir tt tt tt tt]).
      destruct (fb_all_ok F n z cy sy Hint fold_key two_src (build_claims (source_of vs))) as (l & El & H2).
      { apply build_all; [discriminate|]. intros v [<-|[<-|[]]]; (split; [intros c; split; [reflexivity|]|]); cbn [pv_rx pv_app snd]; auto. }
      change (build_claims (source_of vs)) with (build_claims (two_source (fun c : rxcomp => ((false, c), fl c)) (fun c : rxcomp => ((true, c), fr c)) il ir)) in El.
      assert (X : Some l = Some claims) by (etransitivity; [symmetry; exact El|exact E]). injection X as ->.
      pose proof (build_map snd snd snd (fun x : nat => x) vs) as Bm.
      assert (Eb : build_claims (two_source fl fr il ir) = map (claim_map snd snd snd (fun x : nat => x)) (build_claims (source_of vs))).
      { rewrite <- Bm. reflexivity. }
      rewrite Eb. revert H2. clear. generalize (build_claims (source_of vs)). intros cs H2.
      induction H2 as [|c tb cs cl (Tt & Wb & Ca & Cb) H2 (I1 & I2)]; [split; constructor|]. cbn [map]. split; constructor; auto.
      split; [exact (proj1 Tt)|]. split; [exact Wb|]. split; assumption.
    Qed.

    (** the claims hold when those of the children do *)
    Variables (cl cr : F) (kl kr : child_ky F).
    Local Notation left := (mk_pview fl il cl (ck_application kl) (ck_bridge kl) (ck_unified kl)).
    Local Notation right := (mk_pview fr ir cr (ck_application kr) (ck_bridge kr) (ck_unified kr)).
    Local Notation bonds_zero f := (forall id i, In i (bonded id) ->
         fsum NC (fun k => coeff_at (f (Rx i)) k * coeff_at (sy (internal_index id)) (NC - 1 - k)) = 0).
    Lemma two_hold : Forall (claim_holds n z sy) (own_claims left) -> Forall (claim_holds n z sy) (own_claims right) -> bonds_zero fl -> bonds_zero fr ->
      Forall (claim_holds n z sy) (zip_ky (ky_values (two_ky 0 cl cr kl kr)) (build_claims (two_source fl fr il ir))).
    Proof.
      intros HL HR BL BR. destruct (C28_two_proofs _ _ _ 0 cl cr fl fr il ir kl kr) as [Pm _]. eapply Permutation_Forall; [apply Permutation_sym, Pm|].
      apply Forall_app. split; [exact HL|]. apply Forall_app. split; [exact HR|]. unfold bond_claims. apply Forall_map. apply Forall_forall. intros id _.
      unfold claim_holds. cbn [fst snd a_coeff b_coeff]. apply (bond_join F n). intros j Hj.
      match type of Hj with (_ < length ?rs)%nat => pose proof (nth_In rs [] Hj) as Hin; revert Hin; generalize (nth j rs []) end. intros q Hin. apply in_flat_map in Hin. destruct Hin as (i & Hi & Hin).
      cbn [map In pv_rx] in Hin. destruct Hin as [<-|[<-|[]]]; [exact (BL id i Hi)|exact (BR id i Hi)].
    Qed.

    (** ** folding *)
    Variables (H : FMod F) (gens : list H) (get : fold_key -> H) (M N : nat).
    Hypotheses (HM : (0 < M)%nat) (HN : (0 < N)%nat) (H22 : (22 <= M * N)%nat) (Hg : (NC <= length gens)%nat).
    Hypothesis Hget : forall k, p_commit NC gens (two_src k) = Some (get k).
    Lemma key_eqb a b : fold_key_eqb a b = true <-> a = b.
    Proof.
      destruct a as [x c], b as [y d]. unfold fold_key_eqb. cbn [fst snd]. rewrite andb_true_iff, Bool.eqb_true_iff, Nat.eqb_eq. split.
      - intros [-> E]. f_equal. destruct c as [| |[]], d as [| |[]]; try discriminate E; reflexivity.
      - intros E. injection E as -> ->. auto.
    Qed.
    Local Notation kyf := (ky_values (two_ky 0 cl cr kl kr)).
    Lemma ky_high k : (22 <= k)%nat -> kyf k = 0.
    Proof. intros Hk. unfold ky_values, two_ky. cbn. do 22 (destruct k as [|k]; [lia|]). cbn. destruct k; reflexivity. Qed.
    Lemma folded claims ie (mu nu mu' nu' : F) a1 b1 oet at_ bp :
      fb_build n NC z cy (two_source (fun c => ((false, c), fl c)) (fun c => ((true, c), fr c)) il ir) = Some claims ->
      inner_error_terms NC M N (map fst (map fst claims)) (map snd claims) = Some ie -> mu <> 0 ->
      fold_inner (tracked_foldable NC) M N (map fst claims) (finv mu) = Some a1 -> fold_inner (poly_foldable NC) M N (map snd claims) (mu * nu) = Some b1 ->
      outer_error_terms NC N (map fst a1) b1 = Some oet -> mu' <> 0 ->
      fold_outer (tracked_foldable NC) a1 (finv mu') = Some at_ -> fold_outer (poly_foldable NC) b1 (mu' * nu') = Some bp ->
      Forall2 coeffs_of_claim (build_claims (two_source fl fr il ir)) (map plain claims) /\
      fold_inner (poly_foldable NC) M N (map fst (map plain claims)) (finv mu) = Some (map fst a1) /\
      fold_inner (poly_foldable NC) M N (map snd (map plain claims)) (mu * nu) = Some b1 /\
      fold_outer (poly_foldable NC) (map fst a1) (finv mu') = Some (fst at_) /\
      wf 0 NC (fst at_) /\ wf 0 NC bp /\ p_commit NC gens (fst at_) = Some (resolve fold_key_eqb get (snd at_)) /\
      length ie = N /\ Forall (fun e => length e = num_error_terms M) ie /\ length oet = num_error_terms N /\
      (Forall (claim_holds n z sy) (zip_ky kyf (build_claims (two_source fl fr il ir))) ->
       weigh N (finv mu') (mu' * nu') (entry N oet (map (fun i => weigh M (finv mu) (mu * nu) (entry M (nth i ie []) (map kyf (seq (i * M) M)))) (seq 0 (length ie))))
       = p_revdot NC (fst at_) bp).
    Proof.
      intros Ec Ei Hm Ea Eb Eo Hm' Ea' Eb'. destruct (tracked_claims claims Ec) as (Tr & F2).
      pose proof (proj2 (C28_two_proofs _ _ _ 0 cl cr fl fr il ir kl kr)) as L22. pose proof (forall2_len _ _ _ F2) as L. rewrite L22, map_length in L.
      assert (E1 : map fst (map plain claims) = map fst (map fst claims)) by (rewrite !map_map; reflexivity).
      assert (E2 : map snd (map plain claims) = map snd claims) by (rewrite !map_map; reflexivity).
      set (a := map fst (map fst claims)) in *. set (b := map snd claims) in *.
      assert (Wab : Forall (wf 0 NC) a /\ Forall (wf 0 NC) b).
      { rewrite <- E1, <- E2. clear - F2. induction F2 as [|c ab cs l (Wa & Wb & _) F2 (I1 & I2)]; [split; constructor|]. cbn [map]. split; constructor; auto. }
      destruct Wab as (Wa & Wb). assert (La : length a = 22%nat) by (unfold a; rewrite !map_length; symmetry; exact L). assert (Lb : length b = 22%nat) by (unfold b; rewrite map_length; symmetry; exact L).
      pose proof (fold_inner_fst fold_key NC M N _ _ _ Ea) as Fa. pose proof (g_fold_fst fold_key NC _ _ _ Ea') as Fa'. fold a in Fa.
      set (kys := map kyf (seq 0 (M * N))).
      destruct (C27_compose F NC M N a b kys mu nu mu' nu' HM HN ltac:(congruence) ltac:(lia) Wa Wb Hm Hm')
        as (A1 & B1 & A & B & ie' & oe' & X1 & X2 & X3 & X4 & X5 & X6 & X7 & X8 & X9 & X10).
      pose proof (some_eq _ _ _ Fa X1) as XX; clear X1; destruct XX. pose proof (some_eq _ _ _ Eb X2) as XX; clear X2; destruct XX. pose proof (some_eq _ _ _ Ei X3) as XX; clear X3; destruct XX. pose proof (some_eq _ _ _ Eo X4) as XX; clear X4; destruct XX.
      pose proof (some_eq _ _ _ Fa' X5) as XX; clear X5; destruct XX. pose proof (some_eq _ _ _ Eb' X6) as XX; clear X6; destruct XX.
      destruct (two_layers F NC M N a b (finv mu) (mu * nu) (finv mu') (mu' * nu') HM ltac:(lia) ltac:(lia) Wa Wb)
        as (A1 & B1 & A & B & Y1 & Y2 & _ & _ & _ & _ & Y3 & Y4 & WA & WB & _).
      pose proof (some_eq _ _ _ Fa Y1) as XX; clear Y1; destruct XX. pose proof (some_eq _ _ _ Eb Y2) as XX; clear Y2; destruct XX. pose proof (some_eq _ _ _ Fa' Y3) as XX; clear Y3; destruct XX. pose proof (some_eq _ _ _ Eb' Y4) as XX; clear Y4; destruct XX.
      split; [exact F2|]. split; [rewrite E1; exact Fa|]. split; [rewrite E2; exact Eb|]. split; [exact Fa'|]. split; [exact WA|]. split; [exact WB|]. split.
      { apply (resolve_ok F NC fold_key fold_key_eqb key_eqb two_src H gens Hg get).
        - intros k _. split; [unfold two_src; destruct (fst k); auto|apply Hget].
        - destruct (track_inner F NC fold_key two_src M N (map fst claims) (finv mu) HM ltac:(rewrite map_length; exact (Nat.le_trans _ _ _ (Nat.eq_le_incl _ _ (eq_sym L)) H22)) Tr) as (rs & Er & _ & Trs). pose proof (some_eq _ _ _ Ea Er) as XX; clear Er; destruct XX.
          destruct (track_fold F NC fold_key two_src a1 (finv mu') Trs) as (r & Er & Tr'). pose proof (some_eq _ _ _ Ea' Er) as XX; clear Er; destruct XX. exact Tr'. }
      split; [exact X7|]. split; [exact X8|]. split; [exact X9|]. intros Hold.
      assert (Ecol : map (fun i => weigh M (finv mu) (mu * nu) (entry M (nth i ie []) (map kyf (seq (i * M) M)))) (seq 0 (length ie)) = collapsed M N mu nu ie kys).
      { unfold collapsed. rewrite X7. apply map_ext_in. intros g Hgg. apply in_seq in Hgg. do 2 f_equal. unfold group, kys. apply (nth_ext _ _ 0 0); [now rewrite !map_length, !seq_length|].
        intros i Hi. rewrite map_length, seq_length in Hi. rewrite nth_map_seqg by exact Hi. rewrite nth_map_seq0 by exact Hi. rewrite nth_map_seq0 by nia. reflexivity. }
      rewrite Ecol. enough (X : weigh N (finv mu') (mu' * nu') (entry N oet (collapsed M N mu nu ie kys)) - p_revdot NC (fst at_) bp = 0).
      { transitivity (weigh N (finv mu') (mu' * nu') (entry N oet (collapsed M N mu nu ie kys)) - p_revdot NC (fst at_) bp + p_revdot NC (fst at_) bp); [ring|]. rewrite X. ring. }
      etransitivity; [exact X10|]. apply fsum_zero. intros g Hgg. rewrite fsum_zero; [ring|]. intros i Hi.
      assert (Hk : (g * M + i < M * N)%nat) by nia. set (k := (g * M + i)%nat) in *. unfold kys. rewrite nth_map_seq0 by exact Hk.
      destruct (Nat.lt_ge_cases k 22) as [Lk|Lk].
      - rewrite revdot_rdot by (apply wf_nth; assumption).
        assert (Q : claim_holds n z sy (nth k (build_claims (two_source fl fr il ir)) (CBond PreambleStage []), kyf k)).
        { rewrite Forall_forall in Hold. apply Hold. unfold zip_ky. rewrite L22.
          replace (nth k (build_claims (two_source fl fr il ir)) (CBond PreambleStage []), kyf k) with (nth k (combine (build_claims (two_source fl fr il ir)) (map kyf (seq 0 22))) (CBond PreambleStage [], 0)).
          - apply nth_In. rewrite combine_length, map_length, seq_length, L22. lia.
          - rewrite combine_nth by (now rewrite map_length, seq_length). f_equal. now rewrite nth_map_seq0. }
        unfold claim_holds in Q. cbn [fst snd] in Q. rewrite <- Q.
        assert (Ck : coeffs_of_claim (nth k (build_claims (two_source fl fr il ir)) (CBond PreambleStage [])) (nth k (map plain claims) ([], []))).
        { clearbody k; clear - F2 Lk L22. rewrite <- L22 in Lk. clear L22. revert k Lk. induction F2 as [|c ab cs l Hc F2 IH]; intros [|k] Lk; cbn [length nth] in *; try lia; [exact Hc|apply IH; lia]. }
        destruct Ck as (_ & _ & Ca & Cb). unfold rdot.
        assert (Na : nth k a [] = fst (nth k (map plain claims) ([], []))) by (rewrite <- E1; exact (map_nth fst (map plain claims) ([], []) k)).
        assert (Nb : nth k b [] = snd (nth k (map plain claims) ([], []))) by (rewrite <- E2; exact (map_nth snd (map plain claims) ([], []) k)).
        rewrite Na, Nb. rewrite (fsum_ext F NC (fun j => a_coeff _ _ _ * _) (fun j => coeff_at (fst (nth k (map plain claims) ([], []))) j * coeff_at (snd (nth k (map plain claims) ([], []))) (NC - 1 - j))).
        + ring.
        + intros j _. now rewrite Ca, Cb.
      - rewrite ky_high by exact Lk. rewrite !nth_overflow by lia. rewrite revdot_rdot by exact I. rewrite rdot_nil_l. ring.
    Qed.
  End Two.
End Track.
