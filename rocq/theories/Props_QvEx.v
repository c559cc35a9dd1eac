(** A concrete honest step over F97 at rank n = 8: a registry of fourteen circuits, two
    children, the folded claims, f, p and the value compute_v accepts. *)
From Coq Require Import List Arith NArith ZArith Bool Lia Ring Field.
From Verif Require Import FieldDef GF ModDef ArithModel FFTModel SparseModel SparseSpec SparseProofs FoldModel FoldSpec CircModel CircSpec RegModel RegSpec RegProofs Props_Arith Props_Circ Props_Reg
  PcdModel PcdSpec EscModel EndoSpec PointExample RecModel RecSpec Props_RecEx QvModel QvProofs Props_Qv Props_Qv2.
Import ListNotations.
Open Scope f_scope.
Local Open Scope nat_scope.

Section Zero.
  Variable F : Field.
  Add Field FFqx : (f_theory F).
  Lemma zero_l (a : F) : (0 * a)%F = 0%F.
  Proof. ring. Qed.
End Zero.

Definition ex_builder14 : option (builder F97) :=
  obind (ex_obj true) (fun a => obind ex_obj2 (fun c =>
  Some (register_circuit F97 a (fold_left (fun b o => register_internal_circuit F97 o b) [c; a; c; c; a; a; c; c; c; a; c; a; c] (rb_new F97))))).
Definition ex_registry14 : option (registry F97) :=
  obind ex_builder14 (finalize F97 TA97 3 ex_repr ex_hash (fun a => [ex_repr a]) ex_from (fun n => l97 (Z.of_N n))).
(** the children's own polynomials; p(u) = v *)
Definition ex_rxp (a : Z) (i : rxid) : poly F97 :=
  match i with RxPreamble => [(2, map l97 [a; 5]%Z)] | RxQuery => [(0, [l97 a]); (9, map l97 [1; a]%Z)] | RxEval => [(30, map l97 [3; a]%Z)] | _ => [(3, [l97 (a + 4)%Z])] end.
Definition ex_pp (c : pvals F97) : poly F97 := [(0, [uv_el (pv_uni c) Uv - l97 2 * uv_el (pv_uni c) Uu; l97 2]%F)].
Definition ex_ce (a : Z) (c : pvals F97) (xy : poly F97) : ceval (poly F97) :=
  mk_ceval (ex_rxp a) [(0, [l97 (a + 1)%Z; l97 2])] [(4, [l97 (a + 2)%Z])] xy (ex_pp c).
Definition ex_om (id : icid) : F97 := omega_j TA97 (N.of_nat (internal_index id)).
Definition ex_cy (r : registry F97) (i : nat) := circuit_y F97 TA97 3 ex_repr r (N.of_nat i) (ex_chal Uy).
(** circuit identifiers: 22 is that of index 2, 75 that of index 3 *)
Definition ex_step_polys : option (evalout (poly F97)) :=
  obind ex_registry14 (fun r =>
  let ch := ex_chal in
  obind (reg_wx F97 3 ex_repr r (ch Uw) (uv_el (pv_uni ex_l) Ux)) (fun wx0 =>
  obind (reg_wx F97 3 ex_repr r (ch Uw) (uv_el (pv_uni ex_r) Ux)) (fun wx1 =>
  obind (reg_wy F97 3 ex_repr r (ch Uw) (ch Uy)) (fun wy =>
  obind (reg_xy F97 4 3 r (ch Ux) (ch Uy)) (fun xy =>
  obind (reg_xy F97 4 3 r (uv_el (pv_uni ex_l) Ux) (uv_el (pv_uni ex_l) Uy)) (fun xyl =>
  obind (reg_xy F97 4 3 r (uv_el (pv_uni ex_r) Ux) (uv_el (pv_uni ex_r) Uy)) (fun xyr =>
  let cl := ex_ce 11 ex_l xyl in let cr := ex_ce 30 ex_r xyr in
  obind (b_build 8 32 (ch Uz) (ex_cy r) (source_of [child_view cl 2; child_view cr 3])) (fun l =>
  obind (fold_inner (poly_foldable 32) 5 5 (map fst l) (finv (ch Umu))) (fun A' =>
  obind (fold_outer (poly_foldable 32) A' (finv (ch Umu'))) (fun A =>
  obind (fold_inner (poly_foldable 32) 5 5 (map snd l) (ch Umu * ch Unu)%F) (fun B' =>
  obind (fold_outer (poly_foldable 32) B' (ch Umu' * ch Unu')%F) (fun B =>
  Some (mk_evalout cl cr wx0 wx1 wy A B xy))))))))))))).
Definition ex_gens : list (FieldMod F97) := map (fun i => l97 (Z.of_nat (3 * i + 2))) (seq 0 32).
Definition ex_cm (p : poly F97) : poly F97 * FieldMod F97 := (p, match p_commit 32 ex_gens p with Some c => c | None => f0 end).

Definition ex_d : denoms F97 := open_points ex_om ex_l ex_r ex_u0.
Definition ex_result : option (F97 * FieldMod F97 * option (FieldMod F97) * F97) :=
  obind ex_step_polys (fun ps =>
  obind (native_f 32 ps (dn_left ex_d) (dn_right ex_d) (ex_chal Uw) (ex_chal Uy) (ex_chal Uz) (ex_chal Ux) (ex_chal Ualpha) ex_om) (fun f =>
  obind (compute_p 32 37 ex_beta (ex_chal Uu) (ex_cm f) (eo_map ex_cm ps)) (fun r =>
  let '(p, c, v) := r in
  let q := native_query 32 ps (dn_left ex_d) (dn_right ex_d) (ex_chal Uw) (ex_chal Uy) (ex_chal Uz) (ex_chal Ux) ex_om in
  let e := native_eval 32 ps (ex_chal Uu) in
  let ab := axbx 8 5 5 q ex_u0 in
  let qs := poly_queries e q (uv_el (pv_uni ex_l) Uv) (uv_el (pv_uni ex_r) Uv) ex_d (fst ab) (snd ab) in
  let comps := fold_quotients (ex_chal Ualpha) (ex_chal Uu) qs :: eval_write e in
  Some (v, c, p_commit 32 ex_gens p, hfold 37 ex_beta (fun i => nth i comps f0))))).
(** the prover's p(u) is the value of the circuit, the endoscaled commitment that of p,
    and u is none of the opened points *)
Example C38_ex_step :
  match ex_result with Some (v, c, oc, v') => (v97 v, v97 c, option_map v97 oc, v97 v') = (76, 42, Some 42, 76)%Z | None => False end /\
  existsb (fun t => Z.eqb (v97 t) (v97 (ex_chal Uu))) (points_of ex_d) = false.
Proof. split; vm_compute; reflexivity. Qed.

(** over any field: what the honest prover gives meets the hypothesis of C38_sound *)
Lemma honest_meets (F : Field) NC (ps : evalout (poly F)) (l r : cdenoms F) (w y z x al : F) (omega : icid -> F) :
  let d := mk_denoms l r w x y (fmul x z) omega in
  let q := native_query NC ps l r w y z x omega in
  0 < NC -> Forall (wf 0 NC) (eval_write ps) -> registry_consistent NC ps l r w y x ->
  exists f, wf 0 NC f /\ forall u be, ~ In u (points_of d) ->
    hfold 37 be (fun i => nth i (map (fun p => p_eval NC p u) (f :: eval_write ps)) f0)
    = hfold 37 be (fun i => nth i (fold_quotients al u (poly_queries (native_eval NC ps u) q
        (p_eval NC (ce_p (eo_left ps)) (cd_u l)) (p_eval NC (ce_p (eo_right ps)) (cd_u r)) d (p_eval NC (eo_a ps) (fmul x z)) (p_eval NC (eo_b ps) x))
        :: eval_write (native_eval NC ps u)) f0).
Proof.
  intros d q HN W (R1 & R2 & R3 & R4 & R5). destruct (C38_f F NC ps l r w y z x al omega HN W) as (_ & _ & f & _ & Wf & V).
  exists f. split; [exact Wf|]. intros u be Hu. unfold q, d. rewrite (honest_queries F NC ps l r w y z x u omega _ _ _ _ R1 R2 R3 R4 R5 eq_refl eq_refl eq_refl eq_refl).
  rewrite <- (V u Hu). reflexivity.
Qed.
Lemma const_consistent (F : Field) NC (c : F) (ps : evalout (poly F)) (l r : cdenoms F) (w y x : F) : 0 < NC ->
  Forall (fun p => p = [(0, [c])]) [eo_wx0 ps; eo_wx1 ps; eo_wy ps; eo_xy ps; ce_xy (eo_left ps); ce_xy (eo_right ps)] -> registry_consistent NC ps l r w y x.
Proof.
  intros HN H. assert (K : forall a b : F, p_eval NC [(0, [c])] a = p_eval NC [(0, [c])] b).
  { intros a b. assert (W : wf 0 NC [(0, [c])]) by (cbn [wf length]; repeat split; [lia|discriminate|lia]). rewrite !(eval_ok F NC _ _ W).
    destruct NC as [|m]; [lia|]. rewrite !fsum_S_first. f_equal. rewrite !(fsum_zero F m); [reflexivity| |]; intros i _;
      (replace (coeff_at [(0, [c])] (S i)) with (f0 : F) by (destruct i; reflexivity)); apply zero_l. }
  rewrite Forall_forall in H. cbn [In] in H. unfold registry_consistent.
  rewrite (H (eo_wx0 ps)), (H (eo_wx1 ps)), (H (eo_wy ps)), (H (eo_xy ps)), (H (ce_xy (eo_left ps))), (H (ce_xy (eo_right ps))) by tauto. auto.
Qed.
Fixpoint wfb (lo hi : nat) (bs : list (nat * nat)) : bool :=
  match bs with [] => true | (s, n) :: bs' => (lo <=? s) && (0 <? n) && (s + n <=? hi) && wfb (s + n) hi bs' end.
Lemma wfb_ok (F : Field) hi : forall (bs : poly F) lo, wfb lo hi (map (fun b => (fst b, length (snd b))) bs) = true -> wf lo hi bs.
Proof.
  induction bs as [|[s d] bs IH]; intros lo H; [exact I|]. cbn [map fst snd wfb] in H. rewrite !andb_true_iff in H. destruct H as (((A & B) & C) & D).
  apply Nat.leb_le in A, C. apply Nat.ltb_lt in B. cbn [wf]. repeat split; auto. destruct d; [cbn in B; lia|discriminate].
Qed.
(** the hypotheses of C38_sound are met by the honest prover: consistent polynomials of
    four coefficients, all alphas and, for each, all u away from the points *)
Definition ex_k : poly F97 := [(0, map l97 [7]%Z)].
Definition ex_c4 (a : Z) : ceval (poly F97) :=
  mk_ceval (fun i => match i with RxEval => [(1, map l97 [a; 3; 8]%Z)] | _ => [(0, map l97 [a; 1]%Z)] end) [(2, [l97 a])] [(3, [l97 9])] ex_k [(0, map l97 [1; a; 1]%Z)].
Definition ex_ps4 : evalout (poly F97) := mk_evalout (ex_c4 5) (ex_c4 8) ex_k ex_k ex_k [(0, map l97 [4; 4; 4; 4]%Z)] [(1, map l97 [3; 2]%Z)] ex_k.
Definition ex_dl : cdenoms F97 := mk_cdenoms (l97 11) (l97 12) (l97 13) (l97 22).
Definition ex_dr : cdenoms F97 := mk_cdenoms (l97 21) (l97 12) (l97 23) (l97 75).
Definition ex_d4 : denoms F97 := mk_denoms ex_dl ex_dr (l97 31) (l97 33) (l97 35) (fmul (l97 33) (l97 41)) ex_om.
Definition ex_us : list F97 := filter (fun u => negb (existsb (feqb u) (points_of ex_d4))) all97.
Lemma all97_nodup : NoDup all97.
Proof.
  apply (NoDup_map_inv v97). replace (map v97 all97) with (map Z.of_nat (seq 0 97)) by (vm_compute; reflexivity).
  apply FinFun.Injective_map_NoDup; [intros a b; apply Nat2Z.inj|apply seq_NoDup].
Qed.
Lemma ex_us_len : 4 + 55 <= length ex_us.
Proof. assert (H : (4 + 55 <=? length ex_us) = true) by (vm_compute; reflexivity). exact (proj1 (Nat.leb_le _ _) H). Qed.
Lemma ex_us_out u : In u ex_us -> ~ In u (points_of ex_d4).
Proof.
  unfold ex_us. generalize (points_of ex_d4). intros l H Hi. apply filter_In in H. destruct H as [_ H]. apply negb_true_iff in H.
  assert (T : existsb (feqb u) l = true) by (apply existsb_exists; exists u; split; [exact Hi|apply feqb_refl]). congruence.
Qed.
Example C38_ex_sound :
  let q := native_query 4 ex_ps4 ex_dl ex_dr (l97 31) (l97 35) (l97 41) (l97 33) ex_om in
  let vl := p_eval 4 (ce_p (eo_left ex_ps4)) (cd_u ex_dl) in let vr := p_eval 4 (ce_p (eo_right ex_ps4)) (cd_u ex_dr) in
  let ax := p_eval 4 (eo_a ex_ps4) (fmul (l97 33) (l97 41)) in let bx := p_eval 4 (eo_b ex_ps4) (l97 33) in
  Forall (wf 0 4) (eval_write ex_ps4) /\ NoDup all97 /\ 55 <= length all97 /\
  forall al, In al all97 -> exists f us, wf 0 4 f /\ NoDup us /\ 4 + 55 <= length us /\
     forall u, In u us -> ~ In u (points_of ex_d4) /\
       exists e bs, NoDup bs /\ 37 <= length bs /\
         forall be, In be bs ->
           hfold 37 be (fun i => nth i (map (fun p => p_eval 4 p u) (f :: eval_write ex_ps4)) f0)
           = hfold 37 be (fun i => nth i (fold_quotients al u (poly_queries e q vl vr ex_d4 ax bx) :: eval_write e) f0).
Proof.
  intros q vl vr ax bx.
  assert (W : Forall (wf 0 4) (eval_write ex_ps4)).
  { apply Forall_forall. intros p Hp. apply wfb_ok.
    assert (T : forallb (fun p => wfb 0 4 (map (fun b => (fst b, length (snd b))) p)) (eval_write ex_ps4) = true) by (vm_compute; reflexivity).
    rewrite forallb_forall in T. exact (T p Hp). }
  assert (L97 : length all97 = 97) by (unfold all97; rewrite map_length; apply seq_length).
  split; [exact W|]. split; [exact all97_nodup|]. rewrite L97. split; [lia|]. intros al _.
  destruct (honest_meets F97 4 ex_ps4 ex_dl ex_dr (l97 31) (l97 35) (l97 41) (l97 33) al ex_om ltac:(lia) W) as (f & Wf & V).
  { apply (const_consistent F97 4 (l97 7)); [lia|]. repeat (apply Forall_cons; [reflexivity|]). apply Forall_nil. }
  exists f, ex_us. split; [exact Wf|]. split; [apply NoDup_filter, all97_nodup|].
  split; [exact ex_us_len|]. intros u Hu. pose proof (ex_us_out u Hu) as Nu.
  split; [exact Nu|]. exists (native_eval 4 ex_ps4 u), all97. split; [exact all97_nodup|]. rewrite L97. split; [lia|].
  intros be _. exact (V u be Nu).
Qed.
