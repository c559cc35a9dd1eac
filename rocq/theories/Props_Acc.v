(** C61: what one step of the recursion shows about its two children. *)
From Coq Require Import List Arith NArith Bool Lia Ring Field.
From Verif Require Import FieldDef ModDef ArithModel ArithSpec ArithProofs FFTModel FFTProofs SparseModel SparseSpec SparseProofs SparseProofs2 TModel TProofs
  FoldModel FoldSpec ClaimModel CircModel CircSpec SyModel SProofs TraceModel CircProofs CircProofs2 SyProofs SyProofs2 SatProofs GadgetModel GadgetSpec SpongeModel SpongeSpec StageModel StageSpec StageProofs RegModel RegSpec RegProofs RegProofs2
  EndoSpec PcdModel PcdSpec PcdProofs2 RecModel RecSpec CompileModel CompileSpec CompileSpec2 CompileProofs CompileProofs2 RecStageModel RecStageSpec RecStageProofs
  AppModel AppSpec AppProofs Props_Reg Props_Stage Props_App Props_Comp Props_Rec Props_Step
  VerifyModel VerifySpec VerifySpec2 VerifyProofs VerifyProofs2 VerifyProofs3 VerifyProofs4 VerifyProofs5 VerifyProofs6 VerifyProofs7 VerifyProofs8 VerifyProofs9 VerifyProofs10
  Props_Verify AccSpec AccProofs AccProofs2 AccProofs3.
Import ListNotations.
Open Scope f_scope.
Local Open Scope nat_scope.

(** From forked runs of a step whose children are not both trivial: both children's
    folded claims and openings hold, their registry polynomials are the registry's,
    and their circuits and stages pass their checks at enough challenges.  Nothing is
    assumed of the children's polynomials but their length, and nothing of what the
    prover sends. *)
Theorem C61_sound : forall (F : Field) lg log2 M N (cb : F) nbits (gen zeta : F) (om : nat -> F) (rv : regview F) (l r : pvals F) (pl pr : ceval (poly F)) il ir,
  let NC := 4 * 2 ^ lg in
  1 <= lg -> 0 < M -> 22 <= M * N ->
  reg_view_ok NC om (fun i => i < 13 \/ i = il \/ i = ir) rv ->
  pv_cid l = om il -> pv_cid r = om ir ->
  Forall (wf 0 NC) (ceval_write pl) -> Forall (wf 0 NC) (ceval_write pr) -> ~ is_base l r ->
  forked lg log2 M N cb nbits gen zeta om rv l r pl pr ->
  child_true lg rv l pl il /\ child_true lg rv r pr ir.
Proof.
  intros F lg log2 M N cb nbits gen zeta om rv l r pl pr il ir NC Hl HM HMN RV Cl Cr Wl Wr NB H.
  apply (acc_sound F lg log2 M N cb nbits gen zeta om rv l r pl pr il ir); auto.
  destruct lg as [|lg']; [lia|]. cbn [Nat.pow]. pose proof (Nat.pow_nonzero 2 lg'). lia.
Qed.
Print Assumptions C61_sound.

(** Conversely, if the children's openings, registry polynomials and checks hold, the
    latter at all challenges, an honest prover answers every challenge: in a field with
    enough elements and enough values of beta there are such forked runs. *)
Theorem C61_complete : forall (F : Field) lg log2 M N (cb : F) nbits (gen zeta : F) (om : nat -> F) (rv : regview F) (l r : pvals F) (pl pr : ceval (poly F)) il ir,
  let NC := 4 * 2 ^ lg in
  1 <= lg -> 0 < M -> 22 <= M * N -> M < NC + 80 -> N < NC + 80 ->
  reg_view_ok NC om (fun i => i < 13 \/ i = il \/ i = ir) rv ->
  (forall c pc i, (c, pc, i) = (l, pl, il) \/ (c, pc, i) = (r, pr, ir) ->
     pv_cid c = om i /\ fpow (pv_cid c) (2 ^ log2) = f1 /\ Forall (wf 0 NC) (ceval_write pc) /\ pts_on cb (pv_uni c) /\
     p_eval NC (ce_p pc) (uv_el (pv_uni c) Uu) = uv_el (pv_uni c) Uv /\
     (forall t, p_eval NC (ce_xy pc) t = rv_m rv t (uv_el (pv_uni c) Ux) (uv_el (pv_uni c) Uy)) /\
     forall y z, Forall (claim_holds (2 ^ lg) z (rv_sy rv y)) (own_claims (acc_view c pc i y) ++ bond_claims f0 [acc_view c pc i y])) ->
  many (NC + 80) (fun _ : F => True) ->
  many 37 (fun be : F => exists pb, is_beta false nbits gen zeta pb be /\ forall b, is_beta false nbits gen zeta pb b -> b = be) ->
  forked lg log2 M N cb nbits gen zeta om rv l r pl pr.
Proof.
  intros F lg log2 M N cb nbits gen zeta om rv l r pl pr il ir NC Hl HM HMN HMs HNs RV HC Big Be.
  destruct (HC l pl il (or_introl eq_refl)) as (A1 & A2 & A3 & A4 & A5 & A6 & A7). destruct (HC r pr ir (or_intror eq_refl)) as (B1 & B2 & B3 & B4 & B5 & B6 & B7).
  apply (acc_complete F lg log2 M N cb nbits gen zeta om rv l r pl pr il ir); auto.
  destruct lg as [|lg']; [lia|]. cbn [Nat.pow]. pose proof (Nat.pow_nonzero 2 lg'). lia.
Qed.
Print Assumptions C61_complete.

Lemma run_of_forked (F : Field) lg log2 M N (cb : F) nbits (gen zeta : F) (om : nat -> F) (rv : regview F) (l r : pvals F) (pl pr : ceval (poly F)) :
  0 < M -> 0 < N -> forked lg log2 M N cb nbits gen zeta om rv l r pl pr -> fpow (pv_cid l) (2 ^ log2) = f1 /\ fpow (pv_cid r) (2 ^ log2) = f1.
Proof.
  intros HM HN H. pose proof (nc0 lg) as NC0.
  destruct (many_ex F _ _ NC0 H) as (w & wx0 & wx1 & _ & _ & H1). destruct (many_ex F _ _ NC0 H1) as (y & H2).
  destruct (many_ex F _ _ NC0 H2) as (z & wy & ie & _ & _ & H3). destruct (many_ex F _ _ HM H3) as (mu & H4). destruct (many_ex F _ _ HM H4) as (nu & oe & _ & H5).
  destruct (many_ex F _ _ HN H5) as (mu' & H6). destruct (many_ex F _ _ HN H6) as (nu' & A & B & _ & _ & H7).
  destruct (many_ex F _ _ NC0 H7) as (x & q & xy & _ & _ & H8). destruct (many_ex F 55 _ ltac:(lia) H8) as (al & f & _ & H9).
  destruct (many_ex F (4 * 2 ^ lg + 55) _ ltac:(lia) H9) as (u & e & H10). destruct (many_ex F 37 _ ltac:(lia) H10) as (be & U & _ & _ & E1 & E2 & _). auto.
Qed.

(** compute_v reads the points of the internal circuits only one by one *)
Lemma compute_v_omega (F : Field) h cb k M N nbits gen zeta (om om' : icid -> F) l r q e u : (forall id, om id = om' id) ->
  compute_v_rel h cb k M N nbits gen zeta om l r q e u -> compute_v_rel h cb k M N nbits gen zeta om' l r q e u.
Proof.
  intros E (A1 & A2 & A3 & A4 & A5 & A6 & A7 & b & Hb & A8).
  assert (EP : points_of (open_points om l r u) = points_of (open_points om' l r u)).
  { unfold points_of, open_points. cbn [dn_left dn_right dn_w dn_x dn_y dn_xz dn_internal]. do 3 f_equal. apply map_ext. exact E. }
  unfold compute_v_rel. rewrite <- EP. repeat (split; [assumption|]). exists b. split; [exact Hb|].
  cbv zeta in *. rewrite A8. f_equal.
  assert (EQ : forall ax bx, poly_queries e q (uv_el (pv_uni l) Uv) (uv_el (pv_uni r) Uv) (open_points om l r u) ax bx = poly_queries e q (uv_el (pv_uni l) Uv) (uv_el (pv_uni r) Uv) (open_points om' l r u) ax bx).
  { intros ax bx. unfold poly_queries, open_points. cbn [dn_left dn_right dn_w dn_x dn_y dn_xz dn_internal map app icid_all]. now rewrite !E. }
  rewrite EQ. reflexivity.
Qed.

(** The recursion relation of a step, which an accepted proof shows (C54), together with
    the fused claim and opening, makes such a run at the challenges of the proof, once
    beta is determined. *)
Theorem C61_run : forall (F : Field) (T : TwoAdic F) (P : pparams F) tagv log2 cb lg M N nbits (gen zeta : F) (l r : pvals F) (pl pr : ceval (poly F))
    oe ie q e (U : uvals F) wx0 wx1 wy A B xy f p be,
  step_rel false P tagv log2 cb lg M N nbits gen zeta (internal_omega T) l r oe ie q e U ->
  (forall b, is_beta false nbits gen zeta (uv_el U Upre_beta) b -> b = be) ->
  rdot (4 * 2 ^ lg) A B = uv_el U Uc -> wf 0 (4 * 2 ^ lg) p ->
  (forall k, coeff_at p k = hfold 37 be (fun i => coeff_at (nth i (f :: eval_write (mk_evalout pl pr wx0 wx1 wy A B xy)) []) k)) ->
  p_eval (4 * 2 ^ lg) p (uv_el U Uu) = uv_el U Uv ->
  run_ok lg log2 M N cb nbits gen zeta (fun i => omega_j T (N.of_nat i)) l r pl pr (uv_el U Uw) (uv_el U Uy) (uv_el U Uz) wx0 wx1 wy ie (uv_el U Umu) (uv_el U Unu)
    oe (uv_el U Umu') (uv_el U Unu') A B (uv_el U Ux) q xy (uv_el U Ualpha) f (uv_el U Uu) e be.
Proof.
  intros F T P tagv log2 cb lg M N nbits gen zeta l r pl pr oe ie q e U wx0 wx1 wy A B xy f p be [S1 S2 S3 S4 S5 S6 S7 S8 S9] Hb Hc Wp Cp Vp.
  exists U. split; [reflexivity|]. do 7 (split; [assumption|]). split; [|split; [exact Hc|exists p; auto]].
  apply (compute_v_omega F false cb lg M N nbits gen zeta (internal_omega T)); [|exact S9]. intros id. destruct id; reflexivity.
Qed.
Print Assumptions C61_run.

Section C61.
Variables (F Fs : Field) (T : TwoAdic F) (Ts : TwoAdic Fs) (lg : nat).
Add Field FF61 : (f_theory F).
Variables (repr : F -> N) (reprs : Fs -> N).
Variables (hash : list N -> list N) (to_bytes : F -> list N) (from_uniform : list N -> F) (f_of_u64 : N -> F).
Variables (hash' : list N -> list N) (to_bytes' : Fs -> list N) (from_uniform' : list N -> Fs) (f_of_u64' : N -> Fs).
Variables (x0 x1 x2 x3 yc onec hc : F) (cb : F) (hs M N' : nat) (P : pparams F) (of_u : N -> F) (tag : list N)
  (nbits : nat) (gen : F) (fsqrt : F -> option F) (zeta : F).
Variables (l : list (step F)) (sobj : istep -> option (cobj F)) (nsteps : nat) (nobj : ncid -> option (cobj Fs)).
Variable code : place -> circuit F.
Variables (native : registry F) (nested : registry Fs).
Hypothesis B : built F Fs T Ts lg repr reprs hash to_bytes from_uniform f_of_u64 hash' to_bytes' from_uniform' f_of_u64'
  x0 x1 x2 x3 yc onec hc cb hs M N' P of_u tag nbits gen fsqrt zeta l sobj nsteps nobj code native nested.
Local Notation log2 := (Nat.log2_up (length l + 15)).
Local Notation n := (2 ^ lg).
Variable H : FMod F.
Local Notation slot := (syr F T lg repr native).
Local Notation om := (fun i => omega_j T (N.of_nat i)).
Local Notation rv := (reg_rv T lg repr native).

(** The registry of an application is such a registry: m is of length 4n in each
    variable, and at the point of each slot of the domain it is the slot's wiring
    polynomial. *)
Theorem C61_registry : reg_view_ok (4 * n) om (fun i => i < 2 ^ log2) rv.
Proof.
  destruct (native_builder _ _ _ _ _ _ _ _ _ _ _ _ _ _ _ _ _ _ _ _ _ _ _ _ _ _ _ _ _ _ _ _ _ _ _ _ _ _ _ _ B) as (nb & Ef & Lg & Lo & _ & _ & Fo).
  destruct (bl_two _ _ _ _ _ _ _ _ _ _ _ _ _ _ _ _ _ _ _ _ _ _ _ _ _ _ _ _ _ _ _ _ _ _ _ _ _ _ _ _ B) as [S32 _].
  pose proof (bl_key _ _ _ _ _ _ _ _ _ _ _ _ _ _ _ _ _ _ _ _ _ _ _ _ _ _ _ _ _ _ _ _ _ _ _ _ _ _ _ _ B) as K.
  assert (X : exists ss, Forall2 (obj_is lg) (reg_order nb) ss).
  { clear -Fo. induction Fo as [|o os (s & Hs) _ (ss & IH)]; [exists []; constructor|]. exists (s :: ss). now constructor. }
  destruct X as (ss & Hss). assert (Ls : length ss = length l + 15) by (rewrite <- Lo; symmetry; exact (forall2_length _ _ _ Hss)).
  pose proof (C21_registry F T 1 lg repr hash to_bytes from_uniform f_of_u64 nb native ss S32 (le_n 1) Ef Hss) as Y. cbv zeta in Y. rewrite Ls in Y. specialize (Y K).
  constructor; unfold poly_in; cbn [reg_rv rv_m rv_sy].
  - intros x y. destruct (Y x y) as (PP & _ & _ & V & _). destruct (V f0) as (_ & _ & _ & q & Eq & Wq & _). exists q. split; [exact Wq|].
    intros w. destruct (V w) as (Ew & _ & _ & q' & Eq' & _ & Ev). rewrite Ew. rewrite Eq in Eq'. injection Eq' as <-. exact Ev.
  - intros w y. destruct (Y f0 y) as (PP & _ & _ & V & _). destruct (V w) as (_ & _ & (q & Eq & Wq & _) & _). exists q. split; [exact Wq|].
    intros x. destruct (Y x y) as (PP' & _ & _ & V' & _). destruct (V' w) as (Ew & _ & (q' & Eq' & _ & Ev) & _). rewrite Ew. rewrite Eq in Eq'. injection Eq' as <-. exact Ev.
  - intros w x. destruct (Y x f0) as (PP & _ & _ & V & _). destruct (V w) as (_ & (q & Eq & Wq & _) & _). exists q. split; [exact Wq|].
    intros y. destruct (Y x y) as (PP' & _ & _ & V' & _). destruct (V' w) as (Ew & (q' & Eq' & _ & Ev) & _). rewrite Ew. rewrite Eq in Eq'. injection Eq' as <-. exact Ev.
  - intros y i _. destruct (Y f0 y) as (PP & _ & _ & V & _). destruct (V (omega_j T (N.of_nat i))) as (_ & _ & (q & Eq & Wq & _) & _).
    unfold circuit_y. rewrite Eq. split; [exact Wq|]. intros x. destruct (Y x y) as (PP' & _ & _ & V' & _).
    destruct (V' (omega_j T (N.of_nat i))) as (Ew & _ & (q' & Eq' & _ & Ev) & _). rewrite Ew. rewrite Eq in Eq'. injection Eq' as <-. exact Ev.
Qed.

(** the points of the domain *)
Lemma domain_point i : i < 2 ^ ta_S T -> fpow (om i) (2 ^ log2) = f1 -> i < 2 ^ log2.
Proof.
  destruct (native_builder _ _ _ _ _ _ _ _ _ _ _ _ _ _ _ _ _ _ _ _ _ _ _ _ _ _ _ _ _ _ _ _ _ _ _ _ _ _ _ _ B) as (nb & Ef & Lg & Lo & _).
  destruct (bl_two _ _ _ _ _ _ _ _ _ _ _ _ _ _ _ _ _ _ _ _ _ _ _ _ _ _ _ _ _ _ _ _ _ _ _ _ _ _ _ _ B) as [S32 _].
  pose proof (bl_key _ _ _ _ _ _ _ _ _ _ _ _ _ _ _ _ _ _ _ _ _ _ _ _ _ _ _ _ _ _ _ _ _ _ _ _ _ _ _ _ B) as K.
  pose proof (C22_identifiers F T lg repr hash to_bytes from_uniform f_of_u64 nb native S32 Ef) as X. cbv zeta in X. fold (reg_order nb) in X. rewrite Lo in X.
  destruct (X K) as (_ & I & _ & _). intros Hi E.
  destruct (finalize_inv F T repr lg hash to_bytes from_uniform f_of_u64 nb native Ef) as (_ & d & Ed & _). rewrite Lg in Ed.
  destruct (domain_new_inv F T _ _ Ed) as [K1 D]. apply (dom_is_omega F T S32 log2 d (om i) D K1) in E. destruct E as (j & Hj & E).
  apply I in E; [now subst|exact Hi|]. eapply Nat.lt_le_trans; [exact Hj|]. apply Nat.pow_le_mono_r; lia.
Qed.

Lemma point_domain i : i < 2 ^ log2 -> fpow (om i) (2 ^ log2) = f1.
Proof.
  destruct (native_builder _ _ _ _ _ _ _ _ _ _ _ _ _ _ _ _ _ _ _ _ _ _ _ _ _ _ _ _ _ _ _ _ _ _ _ _ _ _ _ _ B) as (nb & Ef & Lg & Lo & _).
  destruct (bl_two _ _ _ _ _ _ _ _ _ _ _ _ _ _ _ _ _ _ _ _ _ _ _ _ _ _ _ _ _ _ _ _ _ _ _ _ _ _ _ _ B) as [S32 _]. intros Hi.
  destruct (finalize_inv F T repr lg hash to_bytes from_uniform f_of_u64 nb native Ef) as (_ & d & Ed & _). rewrite Lg in Ed.
  destruct (domain_new_inv F T _ _ Ed) as [K1 D]. apply (dom_is_omega F T S32 log2 d (om i) D K1). now exists i.
Qed.

(** What a proof shows for the header [out]: a run of the code of the step it names,
    between its children's headers and [out]; the recursion step over its children; its
    folded claim, its opening and its registry polynomial. *)
Definition shows (p : proof F Fs H) (u : uvals F) (out : list F) : Prop :=
  (exists pl res, step_place (length l) pl /\ place_index (length l) pl = Some (N.to_nat (pf_circuit_id p)) /\
     holds (code pl F f1) res /\ map (ew F F) res = pf_left_header p ++ pf_right_header p ++ out) /\
  (exists cl cr oe ie q e u', carried F P hs M N' n (pf_preamble p) (pf_outer_error p) (pf_inner_error p) (pf_query p) (pf_eval p) cl cr oe ie q e /\
     headers_of hs cl /\ headers_of hs cr /\ pv_out cl = pf_left_header p /\ pv_out cr = pf_right_header p /\ u_write u' = u_write u /\
     transcript_1 P (tag_values F of_u tag) u' (ov_sponge oe) /\
     step_rel false P (tag_values F of_u tag) log2 cb lg M N' nbits gen zeta (internal_omega T) cl cr oe ie q e u') /\
  fsum (4 * n) (fun k => (coeff_at (pf_a p) k * coeff_at (pf_b p) (4 * n - 1 - k))%F) = pf_c p /\
  fsum (4 * n) (fun k => (coeff_at (pf_p p) k * fpow (pf_chal p Ch_u) k)%F) = pf_v p /\
  (forall w, reg_wxy F lg repr native w (pf_chal p Ch_x) (pf_chal p Ch_y) = Some (p_eval (4 * n) (pf_registry_xy p) w)).

Lemma polys_wf (p : proof F Fs H) : wf_proof n p -> Forall (wf 0 (4 * n)) (ceval_write (polys_of p)).
Proof.
  intros (W1 & _ & W3 & W4). unfold ceval_write, polys_of. cbn [ce_rx ce_a ce_b ce_xy ce_p]. apply Forall_app. split.
  - apply Forall_forall. intros q Hq. apply in_map_iff in Hq. destruct Hq as (i & <- & _). apply W1.
  - repeat constructor; try assumption; [apply (W1 AbA)|apply (W1 AbB)].
Qed.

Lemma child_shows (p : proof F Fs H) u out s : wf_params P -> 0 < hs -> 22 <= M * N' ->
  (forall v s : F, fsqrt v = Some s -> (s * s)%F = v) -> (forall v : F, fsqrt v = None -> ~ square v) -> (forall v : F, square v \/ square (gen * v)%F) ->
  wf_proof n p -> published p u -> length (pf_left_header p) = hs -> length (pf_right_header p) = hs -> length (out ++ [s]) = hs -> s <> f0 ->
  N.to_nat (pf_circuit_id p) < 2 ^ log2 ->
  child_true lg rv (shown T p u (out ++ [s])) (polys_of p) (N.to_nat (pf_circuit_id p)) -> shows p u (out ++ [s]).
Proof.
  intros WP Hhs H22 S1 S2 S3 Wp Pu L1 L2 L3 Hs Hd [CC CO CR (ys & Nd & Ly & Cl')].
  assert (Ec : uv_el u Uc = pf_c p) by apply Pu. assert (Eu : uv_el u Uu = pf_chal p Ch_u) by apply Pu. assert (Ev : uv_el u Uv = pf_v p) by apply Pu.
  assert (Ex : uv_el u Ux = pf_chal p Ch_x) by apply Pu. assert (Ey : uv_el u Uy = pf_chal p Ch_y) by apply Pu.
  cbn [shown pv_uni polys_of ce_a ce_b ce_p ce_xy] in CC, CO, CR. rewrite Ec in CC. rewrite Eu, Ev in CO. rewrite Ex, Ey in CR.
  assert (Cl : forall y, In y ys -> exists zs, NoDup zs /\ 4 * n <= length zs /\ forall z, In z zs ->
    let v := view_of p (child_k (shown T p u (out ++ [s])) y) in Forall (claim_holds n z (slot y)) (own_claims v ++ bond_claims f0 [v])).
  { intros y Iy. destruct (Cl' y Iy) as (zs & A & A' & C). exists zs. split; [exact A|]. split; [exact A'|]. intros z Iz. specialize (C z Iz).
    unfold acc_view in C. cbn [shown pv_uni] in C. rewrite Ec in C. exact C. }
  assert (Hn : 0 < n) by (pose proof (Nat.pow_nonzero 2 lg); lia).
  destruct (native_builder _ _ _ _ _ _ _ _ _ _ _ _ _ _ _ _ _ _ _ _ _ _ _ _ _ _ _ _ _ _ _ _ _ _ _ _ _ _ _ _ B) as (nb & Ef & Lg & Lo & Sl & St & Fo).
  destruct (bl_two _ _ _ _ _ _ _ _ _ _ _ _ _ _ _ _ _ _ _ _ _ _ _ _ _ _ _ _ _ _ _ _ _ _ _ _ _ _ _ _ B) as [S32 _].
  pose proof (bl_key _ _ _ _ _ _ _ _ _ _ _ _ _ _ _ _ _ _ _ _ _ _ _ _ _ _ _ _ _ _ _ _ _ _ _ _ _ _ _ _ B) as K. rewrite <- Lg in K.
  assert (X : 13 <= N.to_nat (pf_circuit_id p) < length (reg_order nb)).
  { apply (names_step F T lg repr hash to_bytes from_uniform f_of_u64 S32 nb native Ef K x0 x1 x2 x3 yc onec hc cb hs M N' P of_u tag nbits gen fsqrt zeta log2 Sl
      Fs H p u out s ys (proj1 Wp) Nd Ly); auto. rewrite Lg. exact Hd. }
  pose proof X as X'. rewrite Lo in X'. destruct (St _ X') as (pl & Pl & Pi & Po). clear X'.
  split; [|split; [|split; [|split]]].
  - destruct (bl_step _ _ _ _ _ _ _ _ _ _ _ _ _ _ _ _ _ _ _ _ _ _ _ _ _ _ _ _ _ _ _ _ _ _ _ _ _ _ _ _ B pl Pl) as (G & outs & Eo & Lou & Ep).
    destruct (nth_error (reg_order nb) (N.to_nat (pf_circuit_id p))) as [o|] eqn:En; [|apply nth_error_None in En; lia].
    assert (LL : length (pf_left_header p ++ pf_right_header p ++ (out ++ [s])) = length outs) by (rewrite Lou, !app_length, L1, L2, <- app_length, L3; lia).
    assert (Eo' : prog_cobj x0 x1 x2 x3 yc onec hc lg (cbody (code pl)) outs = Some o) by congruence.
    destruct (circuit_owned (code pl) outs G Eo) as [Ow _].
    destruct (circ_slot F T lg repr hash to_bytes from_uniform f_of_u64 S32 nb native Ef K x0 x1 x2 x3 yc onec hc _ o _ outs En Eo' Ow) as [Fi _].
    pose proof (app_accepted F T lg repr hash to_bytes from_uniform f_of_u64 S32 nb native Ef K x0 x1 x2 x3 yc onec hc
      Fs H p u (out ++ [s]) ys (proj1 Wp) Nd Ly Cl o (cbody (code pl)) outs En Eo' Ow LL) as Ac.
    destruct (C51_sound F n (code pl) outs _ (pf_application p) ys G Eo Fi LL (proj1 Wp (Rx RxApplication)) Nd Ly Ac) as (res & Hr & Er).
    exists pl, res. auto.
  - pose proof (native_step F T lg repr hash to_bytes from_uniform f_of_u64 S32 nb native Ef K x0 x1 x2 x3 yc onec hc cb hs M N' P of_u tag nbits gen fsqrt zeta log2 Sl
      Fs H p u (out ++ [s]) ys (proj1 Wp) Nd Ly Cl L1 L2 Hn) as A.
    destruct (C53_sound F P cb of_u tag log2 hs lg M N' nbits gen fsqrt zeta (internal_omega T) WP n (u_write u) _ _ ys _ _ _ _ _ Hhs H22 (eq_refl (length (u_write u))) L1 L2 S1 S2 S3 Nd Ly A)
      as (cl & cr & oe & ie & q & e & u' & X1 & X2 & X3 & _ & _ & X4 & X5 & X6 & X7 & X8).
    exists cl, cr, oe, ie, q, e, u'. repeat (split; [assumption|]). assumption.
  - exact CC.
  - rewrite <- CO. symmetry. apply SparseProofs.eval_ok. apply Wp.
  - intros w. rewrite CR. cbn [reg_rv rv_m]. destruct (slots_ok _ _ _ _ _ _ _ _ _ _ _ _ _ _ _ _ _ _ _ _ _ _ _ _ _ _ _ _ _ _ _ _ _ _ _ _ _ _ _ _ B) as (_ & _ & Sx).
    destruct (Sx (pf_chal p Ch_x) (pf_chal p Ch_y)) as (q & _ & _ & Ew). now rewrite Ew.
Qed.

(** Two proofs, seen by a step with the headers [out ++ [s]]: from forked runs of the
    step, each of them shows a run of the code of the step it names, with its header,
    and a recursion step over its own children, provided the suffixes are not that of
    the internal circuits and not both the trivial one. *)
Theorem C61_children : forall (p1 p2 : proof F Fs H) u1 u2 out1 s1 out2 s2,
  wf_params P -> 0 < hs -> 0 < M -> 22 <= M * N' -> 1 <= lg ->
  (forall v s : F, fsqrt v = Some s -> (s * s)%F = v) -> (forall v : F, fsqrt v = None -> ~ square v) -> (forall v : F, square v \/ square (gen * v)%F) ->
  (forall p, p = p1 \/ p = p2 -> wf_proof n p /\ N.to_nat (pf_circuit_id p) < 2 ^ ta_S T /\ length (pf_left_header p) = hs /\ length (pf_right_header p) = hs) ->
  published p1 u1 -> published p2 u2 -> length (out1 ++ [s1]) = hs -> length (out2 ++ [s2]) = hs ->
  s1 <> f0 -> s2 <> f0 -> ~ (s1 = f1 /\ s2 = f1) ->
  forked lg log2 M N' cb nbits gen zeta om rv (shown T p1 u1 (out1 ++ [s1])) (shown T p2 u2 (out2 ++ [s2])) (polys_of p1) (polys_of p2) ->
  shows p1 u1 (out1 ++ [s1]) /\ shows p2 u2 (out2 ++ [s2]).
Proof.
  intros p1 p2 u1 u2 out1 s1 out2 s2 WP Hhs HM H22 Hlg S1 S2 S3 HP P1 P2 L1 L2 N1 N2 NB FK.
  destruct (HP p1 (or_introl eq_refl)) as (W1 & C1 & A1 & B1). destruct (HP p2 (or_intror eq_refl)) as (W2 & C2 & A2 & B2).
  assert (HN : 0 < N') by nia.
  destruct (run_of_forked _ _ _ _ _ _ _ _ _ _ _ _ _ _ _ HM HN FK) as [D1 D2]. cbn [shown pv_cid] in D1, D2.
  assert (E1 : pf_circuit_id p1 = N.of_nat (N.to_nat (pf_circuit_id p1))) by now rewrite N2Nat.id.
  assert (E2 : pf_circuit_id p2 = N.of_nat (N.to_nat (pf_circuit_id p2))) by now rewrite N2Nat.id.
  rewrite E1 in D1. rewrite E2 in D2. apply domain_point in D1; [|exact C1]. apply domain_point in D2; [|exact C2].
  assert (RV : reg_view_ok (4 * n) om (fun i => i < 13 \/ i = N.to_nat (pf_circuit_id p1) \/ i = N.to_nat (pf_circuit_id p2)) rv).
  { destruct C61_registry as [R1 R2 R3 R4]. constructor; auto. intros y i Hi. apply R4.
    destruct Hi as [Hi|[->| ->]]; auto. eapply Nat.lt_le_trans with (m := length l + 15); [lia|]. pose proof (Nat.log2_log2_up_spec (length l + 15)). lia. }
  destruct (C61_sound F lg log2 M N' cb nbits gen zeta om rv (shown T p1 u1 (out1 ++ [s1])) (shown T p2 u2 (out2 ++ [s2])) (polys_of p1) (polys_of p2)
    (N.to_nat (pf_circuit_id p1)) (N.to_nat (pf_circuit_id p2))) as [T1 T2]; auto.
  - cbn [shown pv_cid]. now rewrite <- E1.
  - cbn [shown pv_cid]. now rewrite <- E2.
  - now apply polys_wf.
  - now apply polys_wf.
  - unfold is_base. cbn [shown pv_out]. rewrite !last_last. exact NB.
  - split; apply child_shows; auto.
Qed.

(** Two proofs that the verifier accepts at all challenges have such forked runs over
    them: their claims can be taken to be those of the children of a step. *)
Section Accepted.
Hypothesis Hst : 0 < nsteps.
Variables (heq : H -> H -> bool) (gens : list H).
Hypothesis Hheq : forall a b : H, heq a b = true <-> a = b.
Hypothesis Hgens : 4 * n <= length gens.
Local Notation verify := (verify T Ts lg repr reprs heq gens cb hs nsteps native nested).
Theorem C61_accepted : forall (p1 p2 : proof F Fs H) u1 u2 s1 d1 s2 d2,
  0 < M -> 22 <= M * N' -> 1 <= lg -> M < 4 * n + 80 -> N' < 4 * n + 80 ->
  (forall p u s d, (p, u, s, d) = (p1, u1, s1, d1) \/ (p, u, s, d) = (p2, u2, s2, d2) ->
     wf_proof n p /\ N.to_nat (pf_circuit_id p) < 2 ^ ta_S T /\ published p u /\ pts_on cb u /\
     forall w y z y' z', verify p (Some s) (Some d) w y z y' z' = Some true) ->
  many (4 * n + 80) (fun _ : F => True) ->
  many 37 (fun be : F => exists pb, is_beta false nbits gen zeta pb be /\ forall b, is_beta false nbits gen zeta pb b -> b = be) ->
  forked lg log2 M N' cb nbits gen zeta om rv (shown T p1 u1 (AppSpec.padded hs s1 d1)) (shown T p2 u2 (AppSpec.padded hs s2 d2)) (polys_of p1) (polys_of p2).
Proof.
  intros p1 p2 u1 u2 s1 d1 s2 d2 HM H22 Hlg HMs HNs HP Big Be.
  assert (X : forall p u s d, (p, u, s, d) = (p1, u1, s1, d1) \/ (p, u, s, d) = (p2, u2, s2, d2) -> N.to_nat (pf_circuit_id p) < 2 ^ log2 /\
    p_eval (4 * n) (pf_p p) (uv_el u Uu) = uv_el u Uv /\ (forall t, p_eval (4 * n) (pf_registry_xy p) t = rv_m rv t (uv_el u Ux) (uv_el u Uy)) /\
    forall y z, let v := acc_view (shown T p u (AppSpec.padded hs s d)) (polys_of p) (N.to_nat (pf_circuit_id p)) y in
      Forall (claim_holds n z (rv_sy rv y)) (own_claims v ++ bond_claims f0 [v])).
  { intros p u s d Hp. destruct (HP p u s d Hp) as (Wp & Hc & Pu & Po & V).
    assert (Ec : uv_el u Uc = pf_c p) by apply Pu. assert (Eu : uv_el u Uu = pf_chal p Ch_u) by apply Pu. assert (Ev : uv_el u Uv = pf_v p) by apply Pu.
    assert (Ex : uv_el u Ux = pf_chal p Ch_x) by apply Pu. assert (Ey : uv_el u Uy = pf_chal p Ch_y) by apply Pu.
    assert (Y : forall w y z, N.to_nat (pf_circuit_id p) < 2 ^ log2 /\ exists u' m, reg_wxy F lg repr native w (pf_chal p Ch_x) (pf_chal p Ch_y) = Some m /\
      verified T n hs nsteps gens (slot y) (syr Fs Ts lg reprs nested f0) m p s d u' w y z f0).
    { intros w y z. destruct (exact_slots _ _ _ _ _ _ _ _ _ _ _ _ _ _ _ _ _ _ _ _ _ _ _ _ _ _ _ _ _ _ _ _ _ _ _ _ _ _ _ _ B Hst H heq gens Hheq Hgens p (Some s) (Some d) w y z f0 f0 Wp Hc) as (m & Em & I).
      destruct (proj1 I (V w y z f0 f0)) as (D & s' & d' & u' & Es & Ed & W). injection Es as <-. injection Ed as <-. split; [exact D|]. exists u', m. split; assumption. }
    split; [exact (proj1 (Y f0 f0 f0))|]. split; [|split].
    - destruct (Y f0 f0 f0) as (_ & u' & m & _ & W). rewrite Eu, Ev, <- (vf_eval _ _ _ _ _ _ _ _ _ _ _ _ _ _ _ _ _ _ _ W). apply SparseProofs.eval_ok. apply Wp.
    - intros t. destruct (Y t f0 f0) as (_ & u' & m & Em & W). cbn [reg_rv rv_m]. rewrite Ex, Ey, Em, <- (vf_registry _ _ _ _ _ _ _ _ _ _ _ _ _ _ _ _ _ _ _ W). apply SparseProofs.eval_ok. apply Wp.
    - intros y z. destruct (Y f0 y z) as (_ & u' & m & _ & W). pose proof (vf_native _ _ _ _ _ _ _ _ _ _ _ _ _ _ _ _ _ _ _ W) as C.
      pose proof (published_unique F Fs H p u u' Pu (vf_published _ _ _ _ _ _ _ _ _ _ _ _ _ _ _ _ _ _ _ W)) as Eq.
      assert (EK : child_k (shown T p u (AppSpec.padded hs s d)) y = child_k (shown T p u' (AppSpec.padded hs s d)) y).
      { unfold child_k, shown. cbn [pv_uni pv_left pv_right pv_out]. now rewrite Eq. }
      cbv zeta in C |- *. rewrite <- EK in C. unfold acc_view. cbn [shown pv_uni]. rewrite Ec. exact C. }
  assert (RV : reg_view_ok (4 * n) om (fun i => i < 13 \/ i = N.to_nat (pf_circuit_id p1) \/ i = N.to_nat (pf_circuit_id p2)) rv).
  { destruct C61_registry as [R1 R2 R3 R4]. constructor; auto. intros y i Hi. apply R4.
    destruct Hi as [Hi|[->| ->]]; [|exact (proj1 (X _ _ _ _ (or_introl eq_refl)))|exact (proj1 (X _ _ _ _ (or_intror eq_refl)))].
    eapply Nat.lt_le_trans with (m := length l + 15); [lia|]. pose proof (Nat.log2_log2_up_spec (length l + 15)). lia. }
  apply (C61_complete F lg log2 M N' cb nbits gen zeta om rv _ _ _ _ (N.to_nat (pf_circuit_id p1)) (N.to_nat (pf_circuit_id p2))); auto.
  assert (Z : forall p u s d, (p, u, s, d) = (p1, u1, s1, d1) \/ (p, u, s, d) = (p2, u2, s2, d2) -> forall c pc i, (c, pc, i) = (shown T p u (AppSpec.padded hs s d), polys_of p, N.to_nat (pf_circuit_id p)) ->
     pv_cid c = om i /\ fpow (pv_cid c) (2 ^ log2) = f1 /\ Forall (wf 0 (4 * n)) (ceval_write pc) /\ pts_on cb (pv_uni c) /\
     p_eval (4 * n) (ce_p pc) (uv_el (pv_uni c) Uu) = uv_el (pv_uni c) Uv /\
     (forall t, p_eval (4 * n) (ce_xy pc) t = rv_m rv t (uv_el (pv_uni c) Ux) (uv_el (pv_uni c) Uy)) /\
     forall y z, Forall (claim_holds n z (rv_sy rv y)) (own_claims (acc_view c pc i y) ++ bond_claims f0 [acc_view c pc i y])).
  { intros p u s d Hp c pc i E. injection E as -> -> ->. destruct (HP p u s d Hp) as (Wp & Hc & Pu & Po & _). destruct (X p u s d Hp) as (X1 & X2 & X3 & X4).
    cbn [shown pv_cid pv_uni]. split; [now rewrite N2Nat.id|]. split; [rewrite <- (N2Nat.id (pf_circuit_id p)); now apply point_domain|].
    split; [now apply polys_wf|]. split; [exact Po|]. split; [exact X2|]. split; [exact X3|exact X4]. }
  intros c pc i [E|E]; [exact (Z p1 u1 s1 d1 (or_introl eq_refl) c pc i E)|exact (Z p2 u2 s2 d2 (or_intror eq_refl) c pc i E)].
Qed.
End Accepted.
End C61.
Print Assumptions C61_registry.
Print Assumptions C61_children.
Print Assumptions C61_accepted.
