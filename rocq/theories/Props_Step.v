(** C53: the polynomials of one recursion step.  Five stage polynomials (preamble,
    outer error, inner error, query, eval), shared by five multi-stage circuits,
    each with a final polynomial. *)
From Coq Require Import List Arith NArith ZArith Bool Lia Ring Field.
From Verif Require Import FieldDef ArithModel SparseModel SparseSpec GadgetModel GadgetSpec GadgetProofs EndoSpec CircModel CircSpec SatProofs StageModel StageSpec StageProofs StageProofs2 SparseProofs SparseProofs2
  SpongeModel SpongeSpec SpongeProofs FoldModel PcdModel RecModel RecSpec RecProofs RecProofs2
  CompileModel CompileSpec CompileSpec2 CompileProofs2 CompileProofs3 Props_Comp RecStageModel RecStageSpec RecStageProofs Props_Rec.
Import ListNotations.
Open Scope f_scope.
Local Open Scope nat_scope.

Section C53.
Variable F : Field.
Add Field FF53 : (f_theory F).
Variable P : pparams F.
Variables (cb : F) (of_u : BinNums.N -> F) (tag : list BinNums.N) (log2 hs k M N nbits : nat) (gen : F) (fsqrt : F -> option F) (zeta : F) (omega : icid -> F).
Hypothesis WP : wf_params P.
Variable n : nat.

Let vpre := pre_wires hs.
Let voe := oe_wires N (pp_T P).
Let vie := ie_wires M N.
Let h1 := s_hashes_1 F cb hs N P of_u tag log2.
Let h2 := s_hashes_2 F cb N P.
Let ci := s_inner F cb hs M N P.
Let co := s_outer F cb hs N P.
Let cv := s_compute_v F cb hs M N k nbits gen fsqrt zeta omega.
Let sth := hashes_stages F hs N P.
Let sti := inner_stages F hs M N P.
Let stv := v_stages hs.

(** the checks made on the polynomials of a step: five stages, five circuits.  Circuit
    hashes_2 skips the preamble, whose polynomial is not part of its sum (claims.rs:154-159). *)
Record step_accepted (us hl hr : list F) (ys : list F) (rpre roe rie rq re : list (nat * list F)) : Prop := mk_step_accepted {
  sa_pre : stage_accepted n [vpre] 0 rpre ys;
  sa_oe : stage_accepted n [vpre; voe] 1 roe ys;
  sa_ie : stage_accepted n [vpre; voe; vie] 2 rie ys;
  sa_query : stage_accepted n [vpre; query_wires] 1 rq ys;
  sa_eval : stage_accepted n [vpre; query_wires; eval_wires] 2 re ys;
  sa_h1 : exists rf r, multi_accepted n sth h1 (us ++ hl ++ hr ++ [0%F]) rf r [rpre; roe] ys;
  sa_h2 : exists rf r, multi_accepted n sth h2 (us ++ [0%F]) rf r [[]; roe] ys;
  sa_inner : exists rf r, multi_accepted n sti ci (us ++ [0%F]) rf r [rpre; roe; rie] ys;
  sa_outer : exists rf r, multi_accepted n sth co (us ++ [0%F]) rf r [rpre; roe] ys;
  sa_v : exists rf r, multi_accepted n stv cv (us ++ [0%F]) rf r [rpre; rq; re] ys }.
(** the values they carry *)
Definition carried (rpre roe rie rq re : list (nat * list F)) (l r : pvals F) (oe : ovals F) (ie : list (list F)) (q : queryout F) (e : evalout F) : Prop :=
  stage_values (poly_wires n rpre) [whole vpre] 0 = pre_write l r /\
  stage_values (poly_wires n roe) [whole vpre; whole voe] 1 = oe_write oe /\
  stage_values (poly_wires n rie) [whole vpre; whole voe; whole vie] 2 = concat ie /\
  stage_values (poly_wires n rq) [whole vpre; whole query_wires] 1 = query_write q /\
  stage_values (poly_wires n re) [whole vpre; whole query_wires; whole eval_wires] 2 = eval_write e.

Lemma values_length (v : kind -> nat -> F) stages i : length (stage_values v stages i) = snd (nth i stages (0, 0)).
Proof. unfold stage_values. now rewrite map_length, seq_length. Qed.

Lemma app_eq_app_len {A} (a a' b b' : list A) : length a = length a' -> a ++ b = a' ++ b' -> a = a' /\ b = b'.
Proof. revert a'. induction a as [|x a IH]; intros [|x' a'] L E; try discriminate; [now split|]. cbn in E, L. injection E as -> E. injection L as L. destruct (IH a' L E) as [-> ->]. now split. Qed.

Lemma multi_holds stages (c : staged F) outputs rf r rs ys : stages <> [] -> generic_staged c -> length rs = length stages ->
  NoDup ys -> 4 * n <= length ys -> (forall i, i < length stages -> stage_accepted n (map fst stages) i (nth i rs []) ys) ->
  multi_accepted n stages c outputs rf r rs ys ->
  exists res, holds (c F f1 (map (fun i => stage_values (poly_wires n (nth i rs [])) stages i) (seq 0 (length stages)))) res /\ map (ew F F) res = outputs.
Proof.
  intros Hne G L Nd Ly Hs (Wf & W & C & Ff & body & outs & S & Hf & Lo & A).
  apply (C52_sound F n stages c body outs outputs rf r rs ys); auto.
  - apply Forall_forall. intros x Hx. destruct (In_nth _ _ [] Hx) as (i & Hi & <-). apply Hs. lia.
  - intros i Hi. apply Hs. exact Hi.
Qed.

(** the zero polynomial passes the check of a stage *)
Lemma zero_accepted vals i (r : list (nat * list F)) ys : stage_accepted n vals i r ys -> stage_accepted n vals i [] ys.
Proof.
  intros [W H]. split; [exact I|]. eapply Forall_impl; [|exact H]. intros y (m & s & Em & Es & _). exists m, s. split; [exact Em|]. split; [exact Es|].
  unfold stage_mask, mask_new in Em. destruct (skip_gates (rev (firstn i vals)) =? 0); [discriminate|]. destruct (Nat.ltb_spec n (skip_gates (rev (firstn i vals)) + stage_gates (nth i vals 0))) as [Hb|Hb]; [discriminate|]. injection Em as <-.
  assert (S1 : 1 <= skip_gates (rev (firstn i vals))) by (rewrite skip_start; unfold stage_start; lia).
  destruct (project_ok F n _ _ S1 Hb y) as (s' & Es' & Ws & _). rewrite Es in Es'. injection Es' as <-.
  rewrite revdot_ok by (auto; exact I). apply fsum_zero. intros e _. cbn [coeff_at]. ring.
Qed.
(** the polynomial of a stage of zeros, unblinded *)
Lemma zero_stage_rx parents v (r : list (nat * list F)) : stage_rx n parents v f0 (repeat f0 v) = Some r -> forall e, coeff_at r e = f0.
Proof.
  intros E e. pose proof (stage_rx_ok F n parents v f0 (repeat f0 v)) as H. cbv zeta in H.
  destruct ((length (repeat (@f0 F) v) <=? v) && (skip_gates parents + stage_gates v <=? n)); [|congruence].
  destruct H as (q & Eq & _ & a & b & c & d & C & Z). rewrite E in Eq. injection Eq as <-. rewrite C. unfold trace_coeff.
  assert (S0 : forall s m p j, scol F s m p (repeat f0 v) j = f0) by (intros; unfold scol; destruct (_ && _); [apply nth_repeat|reflexivity]).
  destruct (e <? n); [apply Z|]. destruct (e <? 2 * n); [destruct (Z (2 * n - 1 - e)) as (_ & -> & _); apply S0|]. destruct (e <? 3 * n); [apply Z|].
  destruct (e <? 4 * n); [|reflexivity]. destruct (Z (4 * n - 1 - e)) as (_ & _ & _ & ->). destruct (_ =? 0); [reflexivity|apply S0].
Qed.

(** Soundness of the step: polynomials passing every check carry stage values, and
    the published instance together with them meets the step relation; the children's
    output headers are the published ones. *)
Theorem C53_sound : forall us hl hr ys rpre roe rie rq re,
  0 < hs -> 22 <= M * N -> length us = unified_wires -> length hl = hs -> length hr = hs ->
  (forall v s : F, fsqrt v = Some s -> (s * s)%F = v) -> (forall v : F, fsqrt v = None -> ~ square v) -> (forall v : F, square v \/ square (gen * v)%F) ->
  NoDup ys -> 4 * n <= length ys ->
  step_accepted us hl hr ys rpre roe rie rq re ->
  exists l r oe ie q e u, carried rpre roe rie rq re l r oe ie q e /\
    headers_of hs l /\ headers_of hs r /\ oe_sized N (pp_T P) oe /\ ie_sized M N ie /\ pv_out l = hl /\ pv_out r = hr /\
    u_write u = us /\ transcript_1 P (tag_values F of_u tag) u (ov_sponge oe) /\
    step_rel false P (tag_values F of_u tag) log2 cb k M N nbits gen zeta omega l r oe ie q e u.
Proof.
  intros us hl hr ys rpre roe rie rq re Hhs H22 Lus Lhl Lhr S1 S2 S3 Nd Ly [A1 A2 A3 A4 A5 (f1' & r1 & B1) (f2' & r2 & B2) (f3' & r3 & B3) (f4' & r4 & B4) (f5' & r5 & B5)].
  destruct (pre_surj hs (stage_values (poly_wires n rpre) [whole vpre] 0) (values_length _ _ _)) as (l & r & Hl & Hr & Epre).
  destruct (oe_surj N (pp_T P) (stage_values (poly_wires n roe) [whole vpre; whole voe] 1) (values_length _ _ _)) as (oe & Ho & Eoe).
  destruct (ie_surj M N (stage_values (poly_wires n rie) [whole vpre; whole voe; whole vie] 2) (values_length _ _ _)) as (ie & Hi & Eie).
  destruct (query_surj (stage_values (poly_wires n rq) [whole vpre; whole query_wires] 1) (values_length _ _ _)) as (q & Eq).
  destruct (eval_surj (stage_values (poly_wires n re) [whole vpre; whole query_wires; whole eval_wires] 2) (values_length _ _ _)) as (e & Ee).
  assert (K1 := multi_holds sth h1 (us ++ hl ++ hr ++ [0%F]) f1' r1 [rpre; roe] ys ltac:(discriminate) (s_hashes_1_gen cb hs N P of_u tag log2) eq_refl Nd Ly).
  assert (K2 := multi_holds sth h2 (us ++ [0%F]) f2' r2 [[]; roe] ys ltac:(discriminate) (s_hashes_2_gen cb N P) eq_refl Nd Ly).
  assert (K3 := multi_holds sti ci (us ++ [0%F]) f3' r3 [rpre; roe; rie] ys ltac:(discriminate) (s_inner_gen cb hs M N P) eq_refl Nd Ly).
  assert (K4 := multi_holds sth co (us ++ [0%F]) f4' r4 [rpre; roe] ys ltac:(discriminate) (s_outer_gen cb hs N P) eq_refl Nd Ly).
  assert (K5 := multi_holds stv cv (us ++ [0%F]) f5' r5 [rpre; rq; re] ys ltac:(discriminate) (s_compute_v_gen cb hs M N k nbits gen fsqrt zeta omega) eq_refl Nd Ly).
  assert (Q1 : forall i, i < 2 -> stage_accepted n (map fst sth) i (nth i [rpre; roe] []) ys) by (intros [|[|i]] H; [exact A1|exact A2|lia]).
  assert (Q0 : forall i, i < 2 -> stage_accepted n (map fst sth) i (nth i [[]; roe] []) ys)
    by (intros [|[|i]] H; [exact (zero_accepted [vpre] 0 rpre ys A1)|exact A2|lia]).
  assert (Q2 : forall i, i < 3 -> stage_accepted n (map fst sti) i (nth i [rpre; roe; rie] []) ys) by (intros [|[|[|i]]] H; [exact A1|exact A2|exact A3|lia]).
  assert (Q3 : forall i, i < 3 -> stage_accepted n (map fst stv) i (nth i [rpre; rq; re] []) ys) by (intros [|[|[|i]]] H; [exact A1|exact A4|exact A5|lia]).
  destruct (K1 Q1 B1) as (z1 & R1 & O1). destruct (K2 Q0 B2) as (z2 & R2 & O2). destruct (K3 Q2 B3) as (z3 & R3 & O3).
  destruct (K4 Q1 B4) as (z4 & R4 & O4). destruct (K5 Q3 B5) as (z5 & R5 & O5). clear K1 K2 K3 K4 K5.
  change (holds (h1 F f1 [stage_values (poly_wires n rpre) [whole vpre] 0; stage_values (poly_wires n roe) [whole vpre; whole voe] 1]) z1) in R1.
  change (holds (h2 F f1 [stage_values (poly_wires n []) [whole vpre] 0; stage_values (poly_wires n roe) [whole vpre; whole voe] 1]) z2) in R2.
  change (holds (ci F f1 [stage_values (poly_wires n rpre) [whole vpre] 0; stage_values (poly_wires n roe) [whole vpre; whole voe] 1; stage_values (poly_wires n rie) [whole vpre; whole voe; whole vie] 2]) z3) in R3.
  change (holds (co F f1 [stage_values (poly_wires n rpre) [whole vpre] 0; stage_values (poly_wires n roe) [whole vpre; whole voe] 1]) z4) in R4.
  change (holds (cv F f1 [stage_values (poly_wires n rpre) [whole vpre] 0; stage_values (poly_wires n rq) [whole vpre; whole query_wires] 1; stage_values (poly_wires n re) [whole vpre; whole query_wires; whole eval_wires] 2]) z5) in R5.
  rewrite <- Eoe in R2. rewrite <- Epre, <- Eoe in R1, R3, R4. rewrite <- Eie in R3. rewrite <- Epre, <- Eq, <- Ee in R5.
  apply h1_iff in R1; auto. apply h2_iff in R2; auto. apply inner_iff in R3; auto. apply outer_iff in R4; auto. apply v_iff in R5; auto.
  destruct R1 as (c1 & R1), R2 as (c2 & R2), R3 as (c3 & R3), R4 as (c4 & R4), R5 as (c5 & R5).
  destruct Ho as (Ho1 & Ho2 & Ho3). destruct Hi as (Hi1 & Hi2).
  assert (Nl : pv_out l <> []) by (intros E; destruct Hl as (_ & _ & X); rewrite E in X; cbn in X; lia).
  assert (Nr : pv_out r <> []) by (intros E; destruct Hr as (_ & _ & X); rewrite E in X; cbn in X; lia).
  assert (WM : forall x : list F, map (ew F F) (map wir x) = x) by (intros x; rewrite map_map; apply map_id).
  destruct (C46_hashes_1 F P cb of_u tag log2 WP l r oe Ho3) as [H1 _]. pose proof (proj1 (H1 _) R1) as (u1 & _ & E1).
  destruct (C46_hashes_2 F P cb WP oe Ho3) as [H2 _]. pose proof (proj1 (H2 _) R2) as (u2 & _ & E2).
  destruct (C47_inner F cb M l r oe ie Hi2 ltac:(lia)) as [H3 _]. pose proof (proj1 (H3 _) R3) as (u3 & _ & E3).
  destruct (C47_outer F cb N l r oe Nl Nr Ho1 Ho2) as [H4 _]. pose proof (proj1 (H4 _) R4) as (u4 & _ & E4).
  destruct (C38_circuit F cb k M N nbits gen fsqrt zeta omega l r q e H22 S1 S2 S3) as [H5 _]. pose proof (proj1 (H5 _) R5) as (u5 & _ & E5).
  assert (T : forall (z : list (elem F F)) c (x : list F), (z, c) = (map wir x, @None coverage) -> z = map wir x /\ c = None) by (intros z c x E; split; congruence).
  apply T in E1, E2, E3, E4, E5. destruct E1 as [-> ->], E2 as [-> ->], E3 as [-> ->], E4 as [-> ->], E5 as [-> ->].
  rewrite WM in O1, O2, O3, O4, O5.
  assert (Lu : length (u_write u1) = length us) by (rewrite Lus; reflexivity).
  assert (X : u_write u1 = us /\ pv_out l = hl /\ pv_out r = hr).
  { apply app_eq_app_len in O1; auto. destruct O1 as [X1 O1]. split; [exact X1|].
    apply app_eq_app_len in O1; [|destruct Hl as (_ & _ & ->); auto]. destruct O1 as [X2 O1]. split; [exact X2|].
    now apply app_inv_tail in O1. }
  destruct X as (X1 & X2 & X3).
  assert (ACC : accepts F P cb of_u tag log2 k M N nbits gen fsqrt zeta omega l r oe ie q e us).
  { unfold accepts. cbv zeta. rewrite X2, X3. rewrite O1 in R1. rewrite O2 in R2. rewrite O3 in R3. rewrite O4 in R4. rewrite O5 in R5. repeat split; assumption. }
  apply C49_step in ACC; auto; [|lia]. destruct ACC as (u & Eu & Tu & Su).
  exists l, r, oe, ie, q, e, u. split; [repeat split; symmetry; assumption|].
  split; [exact Hl|]. split; [exact Hr|]. split; [now repeat split|]. split; [now split|]. repeat (split; [assumption|]). exact Su.
Qed.

(** the same checks passing at every challenge *)
Record step_passes (us hl hr : list F) (rpre roe rie rq re : list (nat * list F)) : Prop := mk_step_passes {
  sp_pre : stage_passes n [vpre] 0 rpre;
  sp_oe : stage_passes n [vpre; voe] 1 roe;
  sp_ie : stage_passes n [vpre; voe; vie] 2 rie;
  sp_query : stage_passes n [vpre; query_wires] 1 rq;
  sp_eval : stage_passes n [vpre; query_wires; eval_wires] 2 re;
  sp_h1 : exists rf r, multi_passes n sth h1 (us ++ hl ++ hr ++ [0%F]) rf r [rpre; roe];
  sp_h2 : exists rf r, multi_passes n sth h2 (us ++ [0%F]) rf r [[]; roe];
  sp_inner : exists rf r, multi_passes n sti ci (us ++ [0%F]) rf r [rpre; roe; rie];
  sp_outer : exists rf r, multi_passes n sth co (us ++ [0%F]) rf r [rpre; roe];
  sp_v : exists rf r, multi_passes n stv cv (us ++ [0%F]) rf r [rpre; rq; re] }.

Lemma multi_complete stages (c : staged F) vs res alphas : stages <> [] -> generic_staged c -> registered n stages c ->
  map (@length F) vs = map snd stages -> holds (c F f1 vs) res ->
  exists rf r rs, length rs = length stages /\ multi_passes n stages c (map (ew F F) res) rf r rs /\
    forall i, i < length stages ->
      stage_rx n (rev (firstn i (map fst stages))) (fst (nth i stages (0, 0))) (nth i alphas f0) (nth i vs []) = Some (nth i rs []) /\
      stage_values (poly_wires n (nth i rs [])) stages i = nth i vs [] /\
      stage_passes n (map fst stages) i (nth i rs []).
Proof.
  intros Hne G (body & outs & S & Hf) Lv H.
  destruct (C52_complete F n stages c body outs vs res alphas Hne G S Hf Lv H) as (rf & r & rs & Wf & Wf0 & W & Lr & Wr & C & V & Ff & Fs & Pa).
  exists rf, r, rs. split; [exact Lr|]. split.
  - repeat (split; [assumption|]). exists body, outs. split; [exact S|]. split; [|exact Pa].
    destruct (holds_staged n f0 stages c body outs vs res G S (proj1 Hf) Lv H) as (q0 & _ & _ & _ & _ & _ & E & _). rewrite <- E. now rewrite map_length.
  - intros i Hi. destruct (V i Hi) as [V1 V2]. split; [exact V1|]. split; [exact V2|]. split; [|now apply Fs].
    rewrite Forall_forall in Wr. apply Wr, nth_In. lia.
Qed.

(** Completeness: a step meeting the relation, whatever the blinds of its stages, has
    polynomials passing every check at every challenge; the stage polynomials are the
    ones the stages compute and serve all circuits. *)
Theorem C53_complete : forall l r oe ie q e u (a1 a2 a3 a4 a5 : F),
  0 < hs -> 22 <= M * N -> headers_of hs l -> headers_of hs r -> oe_sized N (pp_T P) oe -> ie_sized M N ie ->
  (forall v s : F, fsqrt v = Some s -> (s * s)%F = v) -> (forall v : F, fsqrt v = None -> ~ square v) -> (forall v : F, square v \/ square (gen * v)%F) ->
  registered n sth h1 -> registered n sth h2 -> registered n sti ci -> registered n sth co -> registered n stv cv ->
  transcript_1 P (tag_values F of_u tag) u (ov_sponge oe) ->
  step_rel false P (tag_values F of_u tag) log2 cb k M N nbits gen zeta omega l r oe ie q e u ->
  exists rpre roe rie rq re, carried rpre roe rie rq re l r oe ie q e /\
    stage_rx n [] vpre a1 (pre_write l r) = Some rpre /\ stage_rx n [vpre] voe a2 (oe_write oe) = Some roe /\
    stage_rx n [voe; vpre] vie a3 (concat ie) = Some rie /\ stage_rx n [vpre] query_wires a4 (query_write q) = Some rq /\
    stage_rx n [query_wires; vpre] eval_wires a5 (eval_write e) = Some re /\
    step_passes (u_write u) (pv_out l) (pv_out r) rpre roe rie rq re.
Proof.
  intros l r oe ie q e u a1 a2 a3 a4 a5 Hhs H22 Hl Hr Ho Hi S1 S2 S3 G1 G2 G3 G4 G5 T S.
  pose proof Ho as (Ho1 & Ho2 & Ho3). pose proof Hi as (Hi1 & Hi2).
  assert (Nl : pv_out l <> []) by (intros E; destruct Hl as (_ & _ & X); rewrite E in X; cbn in X; lia).
  assert (Nr : pv_out r <> []) by (intros E; destruct Hr as (_ & _ & X); rewrite E in X; cbn in X; lia).
  assert (ACC : accepts F P cb of_u tag log2 k M N nbits gen fsqrt zeta omega l r oe ie q e (u_write u)).
  { apply C49_step; auto; [lia|]. exists u. auto. }
  destruct ACC as (R1 & R2 & R3 & R4 & R5).
  set (us := u_write u ++ [0%F]). set (us1 := u_write u ++ pv_out l ++ pv_out r ++ [0%F]). fold us us1 in R1, R2, R3, R4, R5.
  assert (K1 : holds (h1 F f1 [pre_write l r; oe_write oe]) (map wir us1)) by (apply h1_iff; auto; eexists; exact R1).
  assert (K2 : holds (h2 F f1 [repeat f0 vpre; oe_write oe]) (map wir us)) by (apply h2_iff; auto; eexists; exact R2).
  assert (K3 : holds (ci F f1 [pre_write l r; oe_write oe; concat ie]) (map wir us)) by (apply inner_iff; auto; eexists; exact R3).
  assert (K4 : holds (co F f1 [pre_write l r; oe_write oe]) (map wir us)) by (apply outer_iff; auto; eexists; exact R4).
  assert (K5 : holds (cv F f1 [pre_write l r; query_write q; eval_write e]) (map wir us)) by (apply v_iff; auto; eexists; exact R5).
  assert (L1 : length (pre_write l r) = vpre) by now apply pre_length.
  assert (L2 : length (oe_write oe) = voe) by now apply oe_length.
  assert (L3 : length (concat ie) = vie) by now apply ie_length.
  assert (WM : forall x : list F, map (ew F F) (map wir x) = x) by (intros x; rewrite map_map; apply map_id).
  destruct (multi_complete sth h1 [pre_write l r; oe_write oe] _ [a1; a2] ltac:(discriminate) (s_hashes_1_gen cb hs N P of_u tag log2) G1 ltac:(cbn [map]; now rewrite L1, L2) K1)
    as (f1' & r1 & rs1 & N1 & M1 & V1).
  destruct (multi_complete sth h2 [repeat f0 vpre; oe_write oe] _ [f0; a2] ltac:(discriminate) (s_hashes_2_gen cb N P) G2 ltac:(cbn [map]; now rewrite repeat_length, L2) K2)
    as (f2' & r2 & rs2 & N2 & M2 & V2).
  destruct (multi_complete sti ci [pre_write l r; oe_write oe; concat ie] _ [a1; a2; a3] ltac:(discriminate) (s_inner_gen cb hs M N P) G3 ltac:(cbn [map]; now rewrite L1, L2, L3) K3)
    as (f3' & r3 & rs3 & N3 & M3 & V3).
  destruct (multi_complete sth co [pre_write l r; oe_write oe] _ [a1; a2] ltac:(discriminate) (s_outer_gen cb hs N P) G4 ltac:(cbn [map]; now rewrite L1, L2) K4)
    as (f4' & r4 & rs4 & N4 & M4 & V4).
  destruct (multi_complete stv cv [pre_write l r; query_write q; eval_write e] _ [a1; a4; a5] ltac:(discriminate) (s_compute_v_gen cb hs M N k nbits gen fsqrt zeta omega) G5 ltac:(cbn [map]; now rewrite L1) K5)
    as (f5' & r5 & rs5 & N5 & M5 & V5).
  rewrite WM in M1, M2, M3, M4, M5.
  destruct rs1 as [|rpre [|roe [|? rs1]]]; try discriminate N1.
  destruct rs3 as [|x31 [|x32 [|rie [|? rs3]]]]; try discriminate N3.
  destruct rs5 as [|x51 [|rq [|re [|? rs5]]]]; try discriminate N5.
  destruct rs2 as [|x21 [|x22 [|? rs2]]]; try discriminate N2.
  destruct rs4 as [|x41 [|x42 [|? rs4]]]; try discriminate N4.
  assert (P1 := V1 0 ltac:(cbn; lia)). assert (P2 := V1 1 ltac:(cbn; lia)).
  assert (P3 := V2 0 ltac:(cbn; lia)). assert (P4 := V2 1 ltac:(cbn; lia)).
  assert (P5 := V3 0 ltac:(cbn; lia)). assert (P6 := V3 1 ltac:(cbn; lia)). assert (P7 := V3 2 ltac:(cbn; lia)).
  assert (P8 := V4 0 ltac:(cbn; lia)). assert (P9 := V4 1 ltac:(cbn; lia)).
  assert (P10 := V5 0 ltac:(cbn; lia)). assert (P11 := V5 1 ltac:(cbn; lia)). assert (P12 := V5 2 ltac:(cbn; lia)).
  clear V1 V2 V3 V4 V5.
  destruct P1 as (X1 & Y1 & Z1), P2 as (X2 & Y2 & Z2), P3 as (X3 & _), P4 as (X4 & _), P5 as (X5 & _), P6 as (X6 & _), P7 as (X7 & Y7 & Z7),
    P8 as (X8 & _), P9 as (X9 & _), P10 as (X10 & _), P11 as (X11 & Y11 & Z11), P12 as (X12 & Y12 & Z12).
  change (stage_rx n [] vpre a1 (pre_write l r) = Some rpre) in X1. change (stage_rx n [vpre] voe a2 (oe_write oe) = Some roe) in X2.
  change (stage_rx n [] vpre f0 (repeat f0 vpre) = Some x21) in X3. change (stage_rx n [vpre] voe a2 (oe_write oe) = Some x22) in X4.
  change (stage_rx n [] vpre a1 (pre_write l r) = Some x31) in X5. change (stage_rx n [vpre] voe a2 (oe_write oe) = Some x32) in X6.
  change (stage_rx n [voe; vpre] vie a3 (concat ie) = Some rie) in X7.
  change (stage_rx n [] vpre a1 (pre_write l r) = Some x41) in X8. change (stage_rx n [vpre] voe a2 (oe_write oe) = Some x42) in X9.
  change (stage_rx n [] vpre a1 (pre_write l r) = Some x51) in X10.
  change (stage_rx n [vpre] query_wires a4 (query_write q) = Some rq) in X11.
  change (stage_rx n [query_wires; vpre] eval_wires a5 (eval_write e) = Some re) in X12.
  rewrite X1 in X5, X8, X10. rewrite X2 in X4, X6, X9.
  injection X5 as <-. injection X8 as <-. injection X10 as <-. injection X4 as <-. injection X6 as <-. injection X9 as <-.
  assert (M2' : multi_passes n sth h2 us f2' r2 [[]; roe]).
  { destruct M2 as (W1 & W0 & W2 & C & M2). split; [exact W1|]. split; [exact W0|]. split; [exact W2|]. split; [|exact M2]. intros x. rewrite C. f_equal.
    apply fsum_ext. intros [|i] _; [|reflexivity]. cbn [nth]. now rewrite (zero_stage_rx [] vpre x21 X3). }
  exists rpre, roe, rie, rq, re. split; [repeat split; assumption|]. repeat (split; [assumption|]).
  constructor; try assumption; eauto.
Qed.

(** checks passing at every challenge pass at any challenges, given enough of them *)
Lemma passes_accepted us hl hr ys (zs : list F) rpre roe rie rq re : NoDup zs -> 4 * n <= length zs ->
  registered n sth h1 -> registered n sth h2 -> registered n sti ci -> registered n sth co -> registered n stv cv ->
  step_passes us hl hr rpre roe rie rq re -> step_accepted us hl hr ys rpre roe rie rq re.
Proof.
  intros Nd L G1 G2 G3 G4 G5 [A1 A2 A3 A4 A5 B1 B2 B3 B4 B5].
  assert (A : forall vals i (x : list (nat * list F)), stage_passes n vals i x -> stage_accepted n vals i x ys).
  { intros vals i x [W H]. split; [exact W|]. apply Forall_forall. intros y _. apply H. }
  assert (B : forall stages (c : staged F) outputs rs, registered n stages c -> (exists rf r, multi_passes n stages c outputs rf r rs) ->
    exists rf r, multi_accepted n stages c outputs rf r rs ys).
  { intros stages c outputs rs (b' & o' & E & Hf) (rf & r & W1 & _ & W2 & C & Ff & body & outs & S & Lo & H).
    exists rf, r. repeat (split; [assumption|]). split; [apply Forall_forall; auto|].
    rewrite S in E. injection E as <- <-. exists body, outs. repeat (split; [assumption|]). intros y _. exists zs. auto. }
  constructor; auto.
Qed.
End C53.
Print Assumptions C53_sound.
Print Assumptions C53_complete.
