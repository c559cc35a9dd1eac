(** C38, prover's side and soundness: the quotient polynomial f, the accumulated
    polynomial p and its commitment agree with what compute_v checks, and enough
    accepted runs force every claimed evaluation to be right. *)
From Coq Require Import List Arith NArith ZArith Bool Lia Ring Field.
From Verif Require Import FieldDef ModDef ArithModel SparseModel SparseSpec SparseProofs SparseProofs2 FoldSpec FoldProofs2 EscModel EscSpec EscProofs Props_Esc
  PcdModel RecModel RecSpec QvModel QvProofs QvProofs2.
Import ListNotations.
Open Scope f_scope.
Local Open Scope nat_scope.

(** ** The quotient polynomial.  For well formed polynomials the prover's f exists and,
    away from the opened points, is the alpha-combination of the quotients
    (p_i(u) - p_i(x_i)) / (u - x_i): what [fold_quotients] computes in the circuit from
    the true evaluations. *)
Theorem C38_f : forall (F : Field) NC (ps : evalout (poly F)) (l r : cdenoms F) (w y z x alpha : F) (omega : icid -> F),
  0 < NC -> Forall (wf 0 NC) (eval_write ps) ->
  let qs := f_queries ps l r w y z x omega in
  length qs = 55 /\
  (forall t, In t (map snd qs) <-> In t (points_of (mk_denoms l r w x y (fmul x z) omega))) /\
  exists f, native_f NC ps l r w y z x alpha omega = Some f /\ wf 0 NC f /\
    forall u, ~ In u (points_of (mk_denoms l r w x y (fmul x z) omega)) ->
      p_eval NC f u = fold_quotients alpha u (map (fun q => (p_eval NC (fst q) u, p_eval NC (fst q) (snd q), snd q)) qs).
Proof.
  intros F NC ps l r w y z x alpha omega HN W qs.
  assert (Wq : Forall (fun q => wf 0 NC (fst q)) qs).
  { rewrite Forall_forall in W. apply Forall_forall. intros [p t] Hq. cbn [fst]. apply W. clear - Hq.
    unfold qs, f_queries in Hq. cbn [map flat_map app icid_all rxid_all] in Hq. unfold eval_write, ceval_write. cbn [map app rxid_all].
    repeat (destruct Hq as [Hq|Hq]; [injection Hq as <- _; cbn [In]; tauto|]). destruct Hq. }
  assert (Pts : forall t, In t (map snd qs) <-> In t (points_of (mk_denoms l r w x y (fmul x z) omega))).
  { intros t. unfold qs, f_queries, points_of. cbn [map flat_map app icid_all rxid_all snd In cd_u cd_y cd_x cd_cid dn_left dn_right dn_w dn_x dn_y dn_xz dn_internal]. tauto. }
  split; [reflexivity|]. split; [exact Pts|].
  destruct (quotient_value F NC alpha qs HN ltac:(discriminate) Wq) as (f & E & Wf & V). exists f. split; [exact E|]. split; [exact Wf|].
  intros u Hu. apply V. rewrite Pts. exact Hu.
Qed.
Print Assumptions C38_f.

(** ** The accumulated polynomial: p = beta^36 f + beta^35 p_1 + ... + p_36 in the order
    in which the circuit accumulates the evaluations, coefficient by coefficient, and
    the commitment put together by endoscaling is its commitment. *)
Theorem C38_p : forall (F : Field) (E : FMod F) NC (gens : list E) (beta u : F) (f : poly F) (cf : E) (ps : evalout (poly F * E)),
  NC <= length gens -> wf 0 NC f -> p_commit NC gens f = Some cf ->
  Forall (fun q => wf 0 NC (fst q) /\ p_commit NC gens (fst q) = Some (snd q)) (eval_write ps) ->
  exists p c, compute_p NC 37 beta u (f, cf) ps = Some (p, c, p_eval NC p u) /\ wf 0 NC p /\ p_commit NC gens p = Some c /\
    let comps := f :: map fst (eval_write ps) in
    (forall k, coeff_at p k = hfold 37 beta (fun i => coeff_at (nth i comps []) k)) /\
    (forall t, p_eval NC p t = hfold 37 beta (fun i => nth i (map (fun q => p_eval NC q t) comps) f0)).
Proof.
  intros F E NC gens beta u f cf ps Hg Wf Cf H.
  assert (Wl : Forall (fun q : poly F * E => wf 0 NC (fst q)) (p_order ps)) by (rewrite p_order_ok; eapply Forall_impl; [|exact H]; intros q [Q _]; exact Q).
  destruct (p_acc_ok F NC beta (p_order ps) f [] Wf Wl) as (p & Ep & Wp & Cp). cbn [app] in Ep.
  assert (Lp : length (p_order ps) = 36) by reflexivity. rewrite Lp in Cp. rewrite p_order_ok in *.
  set (pts := cf :: map snd (eval_write ps)).
  pose proof (C29_witness F E 37 beta pts) as Hw. unfold compute_p. rewrite p_order_ok. cbn [fst snd]. rewrite Ep. fold pts.
  destruct (points_new 37 beta pts) as [pw|] eqn:Epw.
  2:{ exfalso. destruct Hw as [Hw|Hw]; [|discriminate]. apply Hw. unfold pts. cbn [length]. now rewrite map_length, Lp. }
  destruct Hw as (Lpts & _ & Lw & _ & Hl).
  assert (Hr : exists rest, rev (pw_interstitials pw) = combo beta pts :: rest).
  { rewrite <- Hl. destruct (pw_interstitials pw) as [|e es] using rev_ind; [discriminate Lw|]. rewrite rev_app_distr, last_last. cbn. eauto. }
  destruct Hr as (rest & ->). exists p, (combo beta pts). split; [reflexivity|]. split; [exact Wp|].
  assert (Wi : forall i, i < 37 -> wf 0 NC (nth i (f :: map fst (eval_write ps)) []) /\ p_commit NC gens (nth i (f :: map fst (eval_write ps)) []) = Some (nth i pts m0)).
  { intros [|i] Hi; cbn [nth]; [auto|]. unfold pts. cbn [nth]. assert (Hi' : i < length (eval_write ps)) by lia.
    rewrite (nth_indep _ [] (fst (@nil (nat * list F), @m0 F E))) by now rewrite map_length. rewrite (map_nth fst).
    rewrite (nth_indep _ m0 (snd (@nil (nat * list F), @m0 F E))) by now rewrite map_length. rewrite (map_nth snd).
    rewrite Forall_forall in H. apply H. now apply nth_In. }
  split.
  - rewrite (commit_comb F NC gens 37 beta (fun i => nth i (f :: map fst (eval_write ps)) []) p (fun i => nth i pts m0) Hg Wp Wi Cp).
    unfold combo. rewrite Lpts. reflexivity.
  - split; [exact Cp|]. intros t. rewrite (eval_comb F NC 37 beta t (fun i => nth i (f :: map fst (eval_write ps)) []) p Wp (fun i Hi => proj1 (Wi i Hi)) Cp).
    apply hfold_ext. intros i Hi. rewrite <- (map_nth (fun q => p_eval NC q t)). apply nth_indep.
    rewrite map_length. cbn [length]. now rewrite map_length, Lp.
Qed.
Print Assumptions C38_p.

(** ** The honest step *)
Definition ce_map {A B : Type} (g : A -> B) (c : ceval A) : ceval B := mk_ceval (fun i => g (ce_rx c i)) (g (ce_a c)) (g (ce_b c)) (g (ce_xy c)) (g (ce_p c)).
Definition eo_map {A B : Type} (g : A -> B) (e : evalout A) : evalout B :=
  mk_evalout (ce_map g (eo_left e)) (ce_map g (eo_right e)) (g (eo_wx0 e)) (g (eo_wx1 e)) (g (eo_wy e)) (g (eo_a e)) (g (eo_b e)) (g (eo_xy e)).
(** the restrictions of the registry polynomial agree where two of them meet *)
Definition registry_consistent {F : Field} (NC : nat) (ps : evalout (poly F)) (l r : cdenoms F) (w y x : F) : Prop :=
  p_eval NC (eo_wx0 ps) (cd_y l) = p_eval NC (ce_xy (eo_left ps)) w /\
  p_eval NC (eo_wx1 ps) (cd_y r) = p_eval NC (ce_xy (eo_right ps)) w /\
  p_eval NC (eo_wy ps) (cd_x l) = p_eval NC (eo_wx0 ps) y /\
  p_eval NC (eo_wy ps) (cd_x r) = p_eval NC (eo_wx1 ps) y /\
  p_eval NC (eo_xy ps) w = p_eval NC (eo_wy ps) x.

Lemma beta_unique (F : Field) nbits (gen zeta a b b' : F) : is_beta true nbits gen zeta a b -> is_beta true nbits gen zeta a b' -> b = b'.
Proof.
  intros (bs & L & H & ->) (bs' & L' & H' & ->). replace bs' with bs; [reflexivity|]. apply (nth_ext _ _ false false); [lia|]. intros i Hi. rewrite L in Hi.
  specialize (H i Hi). specialize (H' i Hi). cbn in H, H'. destruct (nth i bs false), (nth i bs' false); try reflexivity; exfalso.
  - assert (false = true) by tauto. discriminate.
  - assert (false = true) by tauto. discriminate.
Qed.

Lemma honest_queries (F : Field) NC (ps : evalout (poly F)) (l r : cdenoms F) (w y z x u : F) (omega : icid -> F) (vl vr ax bx : F) :
  p_eval NC (eo_wx0 ps) (cd_y l) = p_eval NC (ce_xy (eo_left ps)) w ->
  p_eval NC (eo_wx1 ps) (cd_y r) = p_eval NC (ce_xy (eo_right ps)) w ->
  p_eval NC (eo_wy ps) (cd_x l) = p_eval NC (eo_wx0 ps) y ->
  p_eval NC (eo_wy ps) (cd_x r) = p_eval NC (eo_wx1 ps) y ->
  p_eval NC (eo_xy ps) w = p_eval NC (eo_wy ps) x ->
  vl = p_eval NC (ce_p (eo_left ps)) (cd_u l) -> vr = p_eval NC (ce_p (eo_right ps)) (cd_u r) ->
  ax = p_eval NC (eo_a ps) (fmul x z) -> bx = p_eval NC (eo_b ps) x ->
  poly_queries (native_eval NC ps u) (native_query NC ps l r w y z x omega) vl vr (mk_denoms l r w x y (fmul x z) omega) ax bx
  = map (fun q => (p_eval NC (fst q) u, p_eval NC (fst q) (snd q), snd q)) (f_queries ps l r w y z x omega).
Proof.
  unfold poly_queries, f_queries, native_eval, child_eval, native_query, child_query.
  cbn [ce_p ce_xy ce_a ce_b ce_rx eo_left eo_right eo_wx0 eo_wx1 eo_wy eo_a eo_b eo_xy qo_left qo_right qo_wxy qo_fixed cq_rx cq_a cq_b cq_child_xy_w cq_xy_cid cq_wy_x
       flat_map map app rxid_all icid_all fst snd dn_left dn_right dn_w dn_x dn_y dn_xz dn_internal].
  generalize (@p_eval F NC). intros ev R1 R2 R3 R4 R5 -> -> -> ->. rewrite R1, R2, R3, R4, R5. reflexivity.
Qed.
(** With the true evaluations, consistent registry polynomials, the children's v equal
    to p(u) and A, B folded as the circuit folds their evaluations, the prover's f and p
    exist, p's commitment is the endoscaled one, and compute_v accepts exactly v = p(u). *)
Theorem C38_honest : forall (F : Field) (E : FMod F) (gens : list E) (cb : F) k M N nbits (gen zeta : F) (omega : icid -> F)
    (l r : pvals F) (u : uvals F) (pc : evalout (poly F * E)) (beta : F),
  let NC := 4 * 2 ^ k in
  let ps := eo_map fst pc in
  let d := open_points omega l r u in
  let w := uv_el u Uw in let y := uv_el u Uy in let z := uv_el u Uz in let x := uv_el u Ux in let uu := uv_el u Uu in
  let q := native_query NC ps (dn_left d) (dn_right d) w y z x omega in
  NC <= length gens ->
  Forall (fun p => wf 0 NC (fst p) /\ p_commit NC gens (fst p) = Some (snd p)) (eval_write pc) ->
  pts_on cb (pv_uni l) -> pts_on cb (pv_uni r) ->
  x <> f0 -> z <> f0 -> uv_el u Umu <> f0 -> uv_el u Umu' <> f0 -> ~ In uu (points_of d) ->
  is_beta true nbits gen zeta (uv_el u Upre_beta) beta ->
  registry_consistent NC ps (dn_left d) (dn_right d) w y x ->
  uv_el (pv_uni l) Uv = p_eval NC (ce_p (eo_left ps)) (uv_el (pv_uni l) Uu) ->
  uv_el (pv_uni r) Uv = p_eval NC (ce_p (eo_right ps)) (uv_el (pv_uni r) Uu) ->
  axbx (2 ^ k) M N q u = (p_eval NC (eo_a ps) (fmul x z), p_eval NC (eo_b ps) x) ->
  exists f cf p c, native_f NC ps (dn_left d) (dn_right d) w y z x (uv_el u Ualpha) omega = Some f /\ p_commit NC gens f = Some cf /\
    compute_p NC 37 beta uu (f, cf) pc = Some (p, c, p_eval NC p uu) /\ wf 0 NC p /\ p_commit NC gens p = Some c /\
    (compute_v_rel true cb k M N nbits gen zeta omega l r q (native_eval NC ps uu) u <-> uv_el u Uv = p_eval NC p uu).
Proof.
  intros F E gens cb k M N nbits gen zeta omega l r u pc beta NC ps d w y z x uu q Hg Hc Pl Pr Hx Hz Hmu Hmu' Hu Hb (R1 & R2 & R3 & R4 & R5) Vl Vr AB.
  assert (HN : 0 < NC) by (unfold NC; pose proof (Nat.pow_nonzero 2 k); lia).
  assert (Wp : Forall (wf 0 NC) (eval_write ps)).
  { change (eval_write ps) with (map fst (eval_write pc)). apply Forall_forall. intros p Hp. apply in_map_iff in Hp. destruct Hp as (q0 & <- & Hq).
    rewrite Forall_forall in Hc. apply (Hc q0 Hq). }
  destruct (C38_f F NC ps (dn_left d) (dn_right d) w y z x (uv_el u Ualpha) omega HN Wp) as (_ & _ & f & Ef & Wf & Vf).
  assert (exists cf, p_commit NC gens f = Some cf) as (cf & Ecf) by (rewrite (commit_ok F NC E gens f Wf Hg); eauto).
  destruct (C38_p F E NC gens beta uu f cf pc Hg Wf Ecf Hc) as (p & c & Ep & Wpp & Ecp & _ & Vp).
  exists f, cf, p, c. do 5 (split; [assumption|]).
  specialize (Vf uu Hu). specialize (Vp uu).
  assert (QS := honest_queries F NC ps (dn_left d) (dn_right d) w y z x uu omega (uv_el (pv_uni l) Uv) (uv_el (pv_uni r) Uv) _ _ R1 R2 R3 R4 R5 Vl Vr
             (f_equal fst AB) (f_equal snd AB)). fold q in QS. change (mk_denoms (dn_left d) (dn_right d) w x y (fmul x z) omega) with d in QS.
  set (comps := fold_quotients (uv_el u Ualpha) uu (poly_queries (native_eval NC ps uu) q (uv_el (pv_uni l) Uv) (uv_el (pv_uni r) Uv) d
                  (fst (axbx (2 ^ k) M N q u)) (snd (axbx (2 ^ k) M N q u))) :: eval_write (native_eval NC ps uu)).
  assert (CE : map (fun q => p_eval NC q uu) (f :: map fst (eval_write pc)) = comps).
  { unfold comps. rewrite QS, <- Vf. cbn [map]. rewrite map_map. reflexivity. }
  assert (CL : length comps = 37) by reflexivity. rewrite CE in Vp.
  split.
  - intros (_ & _ & _ & _ & _ & _ & _ & b & Hb' & Hv). rewrite (beta_unique F nbits gen zeta (uv_el u Upre_beta) b beta Hb' Hb) in Hv.
    cbv zeta in Hv. change (uv_el u Uv = hfold (length comps) beta (fun i => nth i comps f0)) in Hv. rewrite Vp, <- CL. exact Hv.
  - intros Hv. do 7 (split; [assumption|]). exists beta. split; [exact Hb|]. cbv zeta.
    change (uv_el u Uv = hfold (length comps) beta (fun i => nth i comps f0)). rewrite CL, <- Vp. exact Hv.
Qed.
Print Assumptions C38_honest.

(** ** Soundness.  Fix the polynomials of a step, a table of claimed evaluations and the
    children's values.  If for 55 different alpha there is an f, chosen after alpha, and
    for it NC + 55 different u, away from the opened points, and for each u claimed
    evaluations e at u such that for 37 different beta the value of compute_v is that of
    the beta-combination of f and the step's polynomials at u, then every claim is right:
    the children's p(u) = v, the registry restrictions agree where they meet, and the
    table holds the true evaluations. *)
Definition child_right {F : Field} (NC : nat) (c : ceval (poly F)) (cq : cquery F) (cid x xz : F) (xy : poly F) : Prop :=
  (forall id, cq_rx cq id = p_eval NC (ce_rx c id) xz) /\ cq_a cq = p_eval NC (ce_a c) xz /\ cq_b cq = p_eval NC (ce_b c) x /\
  cq_xy_cid cq = p_eval NC xy cid.

Lemma queries_ext {T : Type} (e e' : evalout T) q vl vr d ax bx : eval_write e = eval_write e' -> poly_queries e q vl vr d ax bx = poly_queries e' q vl vr d ax bx.
Proof.
  destruct e as [[rl al bl xl pl] [rr ar br xr pr] w0 w1 wy a b xy], e' as [[rl' al' bl' xl' pl'] [rr' ar' br' xr' pr'] w0' w1' wy' a' b' xy'].
  unfold eval_write, ceval_write, poly_queries.
  cbn [eo_left eo_right eo_wx0 eo_wx1 eo_wy eo_a eo_b eo_xy ce_rx ce_a ce_b ce_xy ce_p rxid_all map app]. intros H. injection H. intros.
  repeat (match goal with Hx : _ = _ |- _ => rewrite Hx; clear Hx end). reflexivity.
Qed.

Theorem C38_sound : forall (F : Field) NC (ps : evalout (poly F)) (q : queryout F) (l r : cdenoms F) (w y z x vl vr ax bx : F) (omega : icid -> F) (als : list F),
  let d := mk_denoms l r w x y (fmul x z) omega in
  0 < NC -> Forall (wf 0 NC) (eval_write ps) -> NoDup als -> 55 <= length als ->
  (forall al, In al als -> exists f us, wf 0 NC f /\ NoDup us /\ NC + 55 <= length us /\
     forall u, In u us -> ~ In u (points_of d) /\
       exists e bs, NoDup bs /\ 37 <= length bs /\
         forall be, In be bs ->
           hfold 37 be (fun i => nth i (map (fun p => p_eval NC p u) (f :: eval_write ps)) f0)
           = hfold 37 be (fun i => nth i (fold_quotients al u (poly_queries e q vl vr d ax bx) :: eval_write e) f0)) ->
  p_eval NC (ce_p (eo_left ps)) (cd_u l) = vl /\ p_eval NC (ce_p (eo_right ps)) (cd_u r) = vr /\
  registry_consistent NC ps l r w y x /\
  p_eval NC (eo_a ps) (fmul x z) = ax /\ p_eval NC (eo_b ps) x = bx /\
  (forall id, qo_fixed q id = p_eval NC (eo_xy ps) (omega id)) /\ qo_wxy q = p_eval NC (eo_xy ps) w /\
  child_right NC (eo_left ps) (qo_left q) (cd_cid l) x (fmul x z) (eo_xy ps) /\
  child_right NC (eo_right ps) (qo_right q) (cd_cid r) x (fmul x z) (eo_xy ps).
Proof.
  intros F NC ps q l r w y z x vl vr ax bx omega als d HN W NA LA H.
  set (fq := f_queries ps l r w y z x omega).
  destruct (C38_f F NC ps l r w y z x f0 omega HN W) as (Lq & Pts & _). fold fq in Lq, Pts. fold d in Pts.
  set (V := fun i => snd (fst (nth i (poly_queries (native_eval NC ps f0) q vl vr d ax bx) (f0, f0, f0)))).
  assert (Wq : forall i, i < 55 -> wf 0 NC (fst (nth i fq ([], f0)))).
  { intros i Hi. rewrite Forall_forall in W. apply W. assert (Hn : In (nth i fq ([], f0)) fq) by (apply nth_In; lia). revert Hn. generalize (nth i fq ([], f0)).
    clear. intros [p t] Hq. cbn [fst]. unfold fq, f_queries in Hq. cbn [map flat_map app icid_all rxid_all] in Hq. unfold eval_write, ceval_write. cbn [map app rxid_all].
    repeat (destruct Hq as [Hq|Hq]; [injection Hq as <- _; cbn [In]; tauto|]). destruct Hq. }
  assert (Nth : forall u i, i < 55 -> nth i (poly_queries (native_eval NC ps u) q vl vr d ax bx) (f0, f0, f0)
                  = (p_eval NC (fst (nth i fq ([], f0))) u, V i, snd (nth i fq ([], f0)))).
  { intros u i Hi. unfold V, fq. do 55 (destruct i as [|i]; [reflexivity|]). lia. }
  assert (O : forall i, i < 55 -> p_eval NC (fst (nth i fq ([], f0))) (snd (nth i fq ([], f0))) = V i).
  { apply (openings F NC 55 (fun i => p_eval NC (fst (nth i fq ([], f0)))) V (fun i => snd (nth i fq ([], f0))))  with (als := als); auto.
    - intros i Hi. exists (dense NC (fst (nth i fq ([], f0)))). split; [unfold dense; now rewrite map_length, seq_length|].
      intros t. symmetry. apply peval_dense. auto.
    - intros al Ha. destruct (H al Ha) as (f & us & Wf & NU & LU & HU). exists (p_eval NC f), us.
      split; [exists (dense NC f); split; [unfold dense; now rewrite map_length, seq_length|]; intros t; symmetry; now apply peval_dense|].
      split; [exact NU|]. split; [exact LU|]. intros u Hu. destruct (HU u Hu) as (Nu & e & bs & NB & LB & HB). split.
      + intros i Hi ->. apply Nu, Pts. apply in_map. apply nth_In. lia.
      + assert (CE : map (fun p => p_eval NC p u) (f :: eval_write ps) = fold_quotients al u (poly_queries e q vl vr d ax bx) :: eval_write e).
        { apply (comps_eq F _ _ bs); [reflexivity|exact NB|exact LB|]. intros be Hbe. exact (HB be Hbe). }
        assert (C1 := f_equal (hd f0) CE). assert (C2 := f_equal (@tl F) CE). cbn [map hd tl] in C1, C2. clear CE.
        rewrite C1. rewrite (queries_ext e (native_eval NC ps u) q vl vr d ax bx) by (rewrite <- C2; reflexivity).
        unfold fold_quotients. change (length (poly_queries (native_eval NC ps u) q vl vr d ax bx)) with 55. unfold hfold. apply fsum_ext. intros i Hi.
        rewrite Nth by exact Hi. reflexivity. }
  assert (G : forall i, i < 55 -> forall p t v, nth i fq ([], f0) = (p, t) -> V i = v -> p_eval NC p t = v).
  { intros i Hi p t v E <-. rewrite <- O by exact Hi. rewrite E. reflexivity. }
  Ltac q38 G i := apply (G i); [repeat constructor|reflexivity|reflexivity].
  unfold registry_consistent, child_right.
  split; [q38 G 0|]. split; [q38 G 1|]. split.
  { split; [transitivity (cq_child_xy_w (qo_left q)); [q38 G 4|symmetry; q38 G 2]|].
    split; [transitivity (cq_child_xy_w (qo_right q)); [q38 G 5|symmetry; q38 G 3]|].
    split; [transitivity (cq_wy_x (qo_left q)); [q38 G 8|symmetry; q38 G 6]|].
    split; [transitivity (cq_wy_x (qo_right q)); [q38 G 9|symmetry; q38 G 7]|].
    transitivity (qo_wxy q); [q38 G 11|symmetry; q38 G 10]. }
  split; [q38 G 18|]. split; [q38 G 19|]. split.
  { intros []; symmetry; [q38 G 42|q38 G 43|q38 G 44|q38 G 45|q38 G 46|q38 G 47|q38 G 48|q38 G 49|q38 G 50|q38 G 51|q38 G 52|q38 G 53|q38 G 54]. }
  split; [symmetry; q38 G 11|]. split; (split; [|split; [|split]]).
  - intros []; symmetry; [q38 G 20|q38 G 21|q38 G 22|q38 G 23|q38 G 24|q38 G 25|q38 G 26|q38 G 27|q38 G 28|q38 G 29|q38 G 30].
  - symmetry; q38 G 14.
  - symmetry; q38 G 15.
  - symmetry; q38 G 12.
  - intros []; symmetry; [q38 G 31|q38 G 32|q38 G 33|q38 G 34|q38 G 35|q38 G 36|q38 G 37|q38 G 38|q38 G 39|q38 G 40|q38 G 41].
  - symmetry; q38 G 16.
  - symmetry; q38 G 17.
  - symmetry; q38 G 13.
Qed.
Print Assumptions C38_sound.
