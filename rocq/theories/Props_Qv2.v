(** C38: a whole honest step, its registry polynomials taken from a registry and its
    A and B folded from the children's claims. *)
From Coq Require Import List Arith NArith ZArith Bool Lia Ring Field.
From Verif Require Import FieldDef ModDef ArithModel FFTModel SparseModel SparseSpec SparseProofs SparseProofs2 FoldModel FoldSpec FoldProofs2 FoldProofs3 TModel TProofs ClaimModel
  GadgetModel GadgetSpec GadgetProofs Runs CircModel RegModel RegSpec RegProofs Props_Reg
  EscModel EscSpec EscProofs Props_Esc PcdModel PcdSpec PcdProofs PcdProofs2 Props_Pcd RecModel RecSpec RecProofs RecProofs2 QvModel QvProofs QvProofs2 Props_Qv.
Import ListNotations.
Open Scope f_scope.
Local Open Scope nat_scope.

(** a child as the claim builder sees it *)
Definition child_view {F : Field} (c : ceval (poly F)) (id : nat) : pview (poly F) nat unit :=
  mk_pview (fun i => match i with AbA => ce_a c | AbB => ce_b c | Rx j => ce_rx c j end) id tt tt tt tt.

(** ** A and B folded over the polynomials give what the circuit folds from the evaluations *)
(** for claims known by their coefficients; below, for those of the builder *)
Theorem C38_ab_coeffs : forall (F : Field) k M N (cy : nat -> option (poly F)) (sy : nat -> poly F) (ps : evalout (poly F)) (ld rd : cdenoms F) il ir
    (omega : icid -> F) (u : uvals F) (B1 : list (poly F * poly F)) (A' B' : list (poly F)),
  let NC := 4 * 2 ^ k in
  let w := uv_el u Uw in let y := uv_el u Uy in let z := uv_el u Uz in let x := uv_el u Ux in
  0 < M -> 22 <= M * N ->
  Forall (wf 0 NC) (eval_write ps) ->
  (forall i, i < 13 \/ i = il \/ i = ir -> cy i = Some (sy i) /\ wf 0 NC (sy i)) ->
  (forall id, p_eval NC (eo_xy ps) (omega id) = p_eval NC (sy (internal_index id)) x) ->
  p_eval NC (eo_xy ps) (cd_cid ld) = p_eval NC (sy il) x -> p_eval NC (eo_xy ps) (cd_cid rd) = p_eval NC (sy ir) x ->
  Forall2 (fun c ab => wf 0 NC (fst ab) /\ wf 0 NC (snd ab) /\ (forall j, coeff_at (fst ab) j = a_coeff z c j) /\ (forall j, coeff_at (snd ab) j = b_coeff (2 ^ k) z sy c j))
    (build_claims (source_of [child_view (eo_left ps) il; child_view (eo_right ps) ir])) B1 ->
  fold_inner (poly_foldable NC) M N (map fst B1) (finv (uv_el u Umu)) = Some A' ->
  fold_outer (poly_foldable NC) A' (finv (uv_el u Umu')) = Some (eo_a ps) ->
  fold_inner (poly_foldable NC) M N (map snd B1) (fmul (uv_el u Umu) (uv_el u Unu)) = Some B' ->
  fold_outer (poly_foldable NC) B' (fmul (uv_el u Umu') (uv_el u Unu')) = Some (eo_b ps) ->
  axbx (2 ^ k) M N (native_query NC ps ld rd w y z x omega) u = (p_eval NC (eo_a ps) (fmul x z), p_eval NC (eo_b ps) x).
Proof.
  intros F k M N cy sy ps ld rd il ir omega u B1 A' B' NC w y z x HM HMN W Hcy Hom Hl Hr EB EA1 EA EB1 EB2.
  set (vs := [child_view (eo_left ps) il; child_view (eo_right ps) ir]) in *.
  assert (Wv : forall v, In v vs -> (forall c, wf 0 NC (pv_rx v c)) /\ cy (pv_app v) = Some (sy (pv_app v)) /\ wf 0 NC (sy (pv_app v))).
  { rewrite Forall_forall in W. unfold vs. intros v [<-|[<-|[]]]; (split; [|apply Hcy; cbn; auto]); intros c; apply W;
    unfold eval_write, ceval_write; cbn [map app rxid_all]; destruct c as [| |[]]; cbn [pv_rx child_view In]; tauto. }
  destruct (C43_evaluations F unit (2 ^ k) x z cy sy vs M N (finv (uv_el u Umu)) (finv (uv_el u Umu')) (fmul (uv_el u Umu) (uv_el u Unu)) (fmul (uv_el u Umu') (uv_el u Unu'))
              ltac:(discriminate) HM HMN ltac:(intros i Hi; apply Hcy; auto) Wv) as (l & A1 & B1' & A & B & E1 & E2 & E3 & E4 & E5 & Hh & _).
  fold NC in E1, E2, E3, E4, E5, Hh.
  destruct (C43_builder F unit (2 ^ k) z cy sy vs ltac:(discriminate) ltac:(intros i Hi; apply Hcy; auto) Wv) as (l' & El' & H2). fold NC in El', H2.
  rewrite E1 in El'. injection El' as <-.
  assert (Ll : length l <= M * N) by (rewrite <- (forall2_len _ _ _ H2), build_len; exact HMN).
  assert (LB : length B1 <= M * N) by (rewrite <- (forall2_len _ _ _ EB), (forall2_len _ _ _ H2); exact Ll).
  assert (G : forall cs (B1 l : list (poly F * poly F)),
    Forall2 (fun c ab => wf 0 NC (fst ab) /\ wf 0 NC (snd ab) /\ (forall j, coeff_at (fst ab) j = a_coeff z c j) /\ (forall j, coeff_at (snd ab) j = b_coeff (2 ^ k) z sy c j)) cs B1 ->
    Forall2 (fun c ab => wf 0 NC (fst ab) /\ wf 0 NC (snd ab) /\ (forall j, coeff_at (fst ab) j = a_coeff z c j) /\ (forall j, coeff_at (snd ab) j = b_coeff (2 ^ k) z sy c j)) cs l ->
    Forall (wf 0 NC) (map fst B1) /\ Forall (wf 0 NC) (map snd B1) /\ Forall (wf 0 NC) (map fst l) /\ Forall (wf 0 NC) (map snd l) /\
    forall t, map (fun p => p_eval NC p t) (map fst B1) = map (fun p => p_eval NC p t) (map fst l) /\
              map (fun p => p_eval NC p t) (map snd B1) = map (fun p => p_eval NC p t) (map snd l)).
  { clear. induction cs as [|c cs IH]; intros B1 l HB Hl; inversion HB as [|? ab ? ? (Wa & Wb & Ca & Cb) HB']; inversion Hl as [|? ab' ? ? (Wa' & Wb' & Ca' & Cb') Hl']; subst.
    - cbn. repeat split; constructor.
    - destruct (IH _ _ HB' Hl') as (I1 & I2 & I3 & I4 & I5). cbn [map]. do 4 (split; [constructor; assumption|]). intros t. destruct (I5 t) as (J1 & J2). rewrite J1, J2.
      split; f_equal; rewrite !(SparseProofs.eval_ok F NC) by assumption; apply fsum_ext; intros j _; congruence. }
  destruct (G _ _ _ EB H2) as (W1 & W2 & W3 & W4 & Ev). clear G.
  assert (VA : p_eval NC A (fmul x z) = p_eval NC (eo_a ps) (fmul x z)).
  { rewrite (eval_two_layer F NC M N (map fst l) _ _ _ A1 A HM ltac:(now rewrite map_length) W3 E2 E3).
    rewrite (eval_two_layer F NC M N (map fst B1) _ _ _ A' (eo_a ps) HM ltac:(now rewrite map_length) W1 EA1 EA). now rewrite (proj1 (Ev _)). }
  assert (VB : p_eval NC B x = p_eval NC (eo_b ps) x).
  { rewrite (eval_two_layer F NC M N (map snd l) _ _ _ B1' B HM ltac:(now rewrite map_length) W4 E4 E5).
    rewrite (eval_two_layer F NC M N (map snd B1) _ _ _ B' (eo_b ps) HM ltac:(now rewrite map_length) W2 EB1 EB2). now rewrite (proj2 (Ev _)). }
  rewrite VA, VB in Hh.
  set (q' := mk_queryout (fun id => p_eval NC (sy (internal_index id)) x) (p_eval NC (eo_xy ps) w)
    (mk_cquery (fun id => p_eval NC (ce_rx (eo_left ps) id) (fmul x z)) (p_eval NC (ce_a (eo_left ps)) (fmul x z)) (p_eval NC (ce_b (eo_left ps)) x)
              (p_eval NC (ce_xy (eo_left ps)) w) (p_eval NC (sy il) x) (p_eval NC (eo_wy ps) (cd_x ld)))
    (mk_cquery (fun id => p_eval NC (ce_rx (eo_right ps) id) (fmul x z)) (p_eval NC (ce_a (eo_right ps)) (fmul x z)) (p_eval NC (ce_b (eo_right ps)) x)
              (p_eval NC (ce_xy (eo_right ps)) w) (p_eval NC (sy ir) x) (p_eval NC (eo_wy ps) (cd_x rd)))).
  assert (Q : axbx (2 ^ k) M N (native_query NC ps ld rd w y z x omega) u = axbx (2 ^ k) M N q' u).
  { unfold axbx, native_query, child_query. rewrite Hl, Hr. f_equal. f_equal. apply map_ext. intros c. destruct c; cbn [ev_b qo_fixed]; rewrite ?Hom; reflexivity. }
  rewrite Q. pose proof (dd_axbx F false k M N q' u HM HMN) as D. cbn [det] in D.
  assert (X := proj2 (D _) (conj I eq_refl)). clear D Q.
  assert (Y := proj1 (Hh (el false (fst (axbx (2 ^ k) M N q' u)), el false (snd (axbx (2 ^ k) M N q' u)))) X).
  clear X Hh. revert Y. generalize (axbx (2 ^ k) M N q' u). intros [a b'] Y. cbn [fst snd] in Y. injection Y as -> ->. reflexivity.
Qed.
Theorem C38_ab : forall (F : Field) k M N (cy : nat -> option (poly F)) (sy : nat -> poly F) (ps : evalout (poly F)) (ld rd : cdenoms F) il ir
    (omega : icid -> F) (u : uvals F) (B1 : list (poly F * poly F)) (A' B' : list (poly F)),
  let NC := 4 * 2 ^ k in
  let w := uv_el u Uw in let y := uv_el u Uy in let z := uv_el u Uz in let x := uv_el u Ux in
  0 < M -> 22 <= M * N ->
  Forall (wf 0 NC) (eval_write ps) ->
  (forall i, i < 13 \/ i = il \/ i = ir -> cy i = Some (sy i) /\ wf 0 NC (sy i)) ->
  (forall id, p_eval NC (eo_xy ps) (omega id) = p_eval NC (sy (internal_index id)) x) ->
  p_eval NC (eo_xy ps) (cd_cid ld) = p_eval NC (sy il) x -> p_eval NC (eo_xy ps) (cd_cid rd) = p_eval NC (sy ir) x ->
  b_build (2 ^ k) NC z cy (source_of [child_view (eo_left ps) il; child_view (eo_right ps) ir]) = Some B1 ->
  fold_inner (poly_foldable NC) M N (map fst B1) (finv (uv_el u Umu)) = Some A' ->
  fold_outer (poly_foldable NC) A' (finv (uv_el u Umu')) = Some (eo_a ps) ->
  fold_inner (poly_foldable NC) M N (map snd B1) (fmul (uv_el u Umu) (uv_el u Unu)) = Some B' ->
  fold_outer (poly_foldable NC) B' (fmul (uv_el u Umu') (uv_el u Unu')) = Some (eo_b ps) ->
  axbx (2 ^ k) M N (native_query NC ps ld rd w y z x omega) u = (p_eval NC (eo_a ps) (fmul x z), p_eval NC (eo_b ps) x).
Proof.
  intros F k M N cy sy ps ld rd il ir omega u B1 A' B' NC w y z x HM HMN W Hcy Hom Hl Hr EB EA1 EA EB1 EB2.
  apply (C38_ab_coeffs F k M N cy sy ps ld rd il ir omega u B1 A' B'); auto.
  destruct (C43_builder F unit (2 ^ k) z cy sy [child_view (eo_left ps) il; child_view (eo_right ps) ir]) as (l & El & H2).
  - discriminate.
  - intros i Hi. apply Hcy. auto.
  - rewrite Forall_forall in W. intros v [<-|[<-|[]]]; (split; [|apply Hcy; cbn; auto]); intros c; apply W;
    unfold eval_write, ceval_write; cbn [map app rxid_all]; destruct c as [| |[]]; cbn [pv_rx child_view In]; tauto.
  - fold NC in El, H2. rewrite EB in El. injection El as <-. exact H2.
Qed.
Print Assumptions C38_ab.

(** ** A whole honest step.  The registry polynomials of the step and of its children are
    those of one finalised registry, at the challenges of the step and of the children;
    A and B are folded from the children's claims; the children's v is p(u).  Then f, p
    and p's commitment exist and compute_v accepts exactly v = p(u). *)
Theorem C38_step_coeffs : forall (F : Field) (T : TwoAdic F) (threads lg : nat) (repr : F -> N)
    (hash : list N -> list N) (to_bytes : F -> list N) (from_uniform : list N -> F) (f_of_u64 : N -> F)
    (b : builder F) (rg : registry F) (ss : list (F -> F -> F)) (sy : nat -> poly F)
    (E : FMod F) (gens : list E) (cb : F) M N nbits (gen zeta : F)
    (omega : icid -> F) (l r : pvals F) (u : uvals F) (pc : evalout (poly F * E)) (beta : F) il ir (B1 : list (poly F * poly F)) (A' B' : list (poly F)),
  let NC := 4 * 2 ^ lg in
  let ps := eo_map fst pc in
  let d := open_points omega l r u in
  let w := uv_el u Uw in let y := uv_el u Uy in let z := uv_el u Uz in let x := uv_el u Ux in let uu := uv_el u Uu in
  (forall id, omega id = omega_j T (N.of_nat (internal_index id))) ->
  (* the registry *)
  ta_S T <= 32 -> 0 < threads ->
  finalize F T lg repr hash to_bytes from_uniform f_of_u64 b = Some rg ->
  Forall2 (obj_is lg) (rb_internal F b ++ rb_bonding F b ++ rb_steps F b ++ rb_app F b) ss ->
  (forall a a' : F, fpow a (2 ^ Nat.log2_up (length ss)) = f1 -> fpow a' (2 ^ Nat.log2_up (length ss)) = f1 -> omega_key F repr a = omega_key F repr a' -> a = a') ->
  13 <= length ss -> il < length ss -> ir < length ss ->
  pv_cid l = omega_j T (N.of_nat il) -> pv_cid r = omega_j T (N.of_nat ir) ->
  (* its restrictions *)
  reg_wx F lg repr rg w (uv_el (pv_uni l) Ux) = Some (eo_wx0 ps) -> reg_wx F lg repr rg w (uv_el (pv_uni r) Ux) = Some (eo_wx1 ps) ->
  reg_wy F lg repr rg w y = Some (eo_wy ps) -> reg_xy F threads lg rg x y = Some (eo_xy ps) ->
  reg_xy F threads lg rg (uv_el (pv_uni l) Ux) (uv_el (pv_uni l) Uy) = Some (ce_xy (eo_left ps)) ->
  reg_xy F threads lg rg (uv_el (pv_uni r) Ux) (uv_el (pv_uni r) Uy) = Some (ce_xy (eo_right ps)) ->
  (* the folded claims *)
  0 < M -> 22 <= M * N ->
  (forall i, i < length ss -> circuit_y F T lg repr rg (N.of_nat i) y = Some (sy i)) ->
  Forall2 (fun c ab => wf 0 NC (fst ab) /\ wf 0 NC (snd ab) /\ (forall j, coeff_at (fst ab) j = a_coeff z c j) /\ (forall j, coeff_at (snd ab) j = b_coeff (2 ^ lg) z sy c j))
    (build_claims (source_of [child_view (eo_left ps) il; child_view (eo_right ps) ir])) B1 ->
  fold_inner (poly_foldable NC) M N (map fst B1) (finv (uv_el u Umu)) = Some A' ->
  fold_outer (poly_foldable NC) A' (finv (uv_el u Umu')) = Some (eo_a ps) ->
  fold_inner (poly_foldable NC) M N (map snd B1) (fmul (uv_el u Umu) (uv_el u Unu)) = Some B' ->
  fold_outer (poly_foldable NC) B' (fmul (uv_el u Umu') (uv_el u Unu')) = Some (eo_b ps) ->
  (* the commitments, the children and the challenges *)
  NC <= length gens ->
  Forall (fun p => wf 0 NC (fst p) /\ p_commit NC gens (fst p) = Some (snd p)) (eval_write pc) ->
  uv_el (pv_uni l) Uv = p_eval NC (ce_p (eo_left ps)) (uv_el (pv_uni l) Uu) ->
  uv_el (pv_uni r) Uv = p_eval NC (ce_p (eo_right ps)) (uv_el (pv_uni r) Uu) ->
  pts_on cb (pv_uni l) -> pts_on cb (pv_uni r) ->
  x <> f0 -> z <> f0 -> uv_el u Umu <> f0 -> uv_el u Umu' <> f0 -> ~ In uu (points_of d) ->
  is_beta true nbits gen zeta (uv_el u Upre_beta) beta ->
  exists f cf p c, native_f NC ps (dn_left d) (dn_right d) w y z x (uv_el u Ualpha) omega = Some f /\ p_commit NC gens f = Some cf /\
    compute_p NC 37 beta uu (f, cf) pc = Some (p, c, p_eval NC p uu) /\ wf 0 NC p /\ p_commit NC gens p = Some c /\
    (compute_v_rel true cb lg M N nbits gen zeta omega l r (native_query NC ps (dn_left d) (dn_right d) w y z x omega) (native_eval NC ps uu) u
       <-> uv_el u Uv = p_eval NC p uu).
Proof.
  intros F T threads lg repr hash to_bytes from_uniform f_of_u64 b rg ss sy E gens cb M N nbits gen zeta omega l r u pc beta il ir B1 A' B' NC ps d w y z x uu
    Hom S32 TP Fin Obj Inj L13 Lil Lir Cl Cr Rwx0 Rwx1 Rwy Rxy Rxyl Rxyr HM HMN Esy EB EA1 EA EB1 EB2 Hg Hc Vl Vr Pl Pr Hx Hz Hmu Hmu' Hu Hb.
  assert (Wp : Forall (wf 0 NC) (eval_write ps)).
  { change (eval_write ps) with (map fst (eval_write pc)). apply Forall_forall. intros p Hp. apply in_map_iff in Hp. destruct Hp as (q0 & <- & Hq).
    rewrite Forall_forall in Hc. apply (Hc q0 Hq). }
  pose proof (C21_registry F T threads lg repr hash to_bytes from_uniform f_of_u64 b rg ss S32 TP Fin Obj Inj) as R. cbv zeta in R. fold NC in R.
  set (key := fun x y => fmul (rg_key F rg) (fpow (fmul x y) (NC - 1))) in *.
  assert (RV : forall x y, exists P : list F, (forall i, i < length ss -> peval P (omega_j T (N.of_nat i)) = nth i (map (fun s => s x y) ss) f0) /\
     (forall w q, reg_wx F lg repr rg w x = Some q -> p_eval NC q y = fadd (peval P w) (key x y)) /\
     (forall w q, reg_wy F lg repr rg w y = Some q -> p_eval NC q x = fadd (peval P w) (key x y)) /\
     (forall w q, reg_xy F threads lg rg x y = Some q -> p_eval NC q w = fadd (peval P w) (key x y))).
  { intros x0 y0. destruct (R x0 y0) as (P & (_ & I1 & _) & _ & Rm & _). rewrite map_length in I1. exists P. split; [exact I1|].
    split; [|split]; intros w0 q0 Eq; destruct (Rm w0) as (_ & (q1 & E1 & _ & V1) & (q2 & E2 & _ & V2) & (q3 & E3 & _ & V3));
      [rewrite E1 in Eq|rewrite E2 in Eq|rewrite E3 in Eq]; injection Eq as <-; assumption. }
  assert (Cons : registry_consistent NC ps (dn_left d) (dn_right d) w y x).
  { unfold registry_consistent. cbn [d open_points dn_left dn_right cd_y cd_x].
    destruct (RV (uv_el (pv_uni l) Ux) (uv_el (pv_uni l) Uy)) as (P1 & _ & a1 & _ & c1).
    destruct (RV (uv_el (pv_uni r) Ux) (uv_el (pv_uni r) Uy)) as (P2 & _ & a2 & _ & c2).
    destruct (RV (uv_el (pv_uni l) Ux) y) as (P3 & _ & a3 & b3 & _).
    destruct (RV (uv_el (pv_uni r) Ux) y) as (P4 & _ & a4 & b4 & _).
    destruct (RV x y) as (P5 & _ & _ & b5 & c5).
    split; [now rewrite (a1 w _ Rwx0), (c1 w _ Rxyl)|]. split; [now rewrite (a2 w _ Rwx1), (c2 w _ Rxyr)|].
    split; [now rewrite (b3 w _ Rwy), (a3 w _ Rwx0)|]. split; [now rewrite (b4 w _ Rwy), (a4 w _ Rwx1)|].
    now rewrite (c5 w _ Rxy), (b5 w _ Rwy). }
  assert (Sy : forall i, i < length ss -> circuit_y F T lg repr rg (N.of_nat i) y = Some (sy i) /\ wf 0 NC (sy i) /\
             p_eval NC (eo_xy ps) (omega_j T (N.of_nat i)) = p_eval NC (sy i) x).
  { intros i Hi. destruct (RV x y) as (P & I1 & _ & b5 & c5). destruct (R x y) as (P' & _ & _ & Rm & _).
    destruct (Rm (omega_j T (N.of_nat i))) as (_ & _ & (q2 & E2 & W2 & _) & _). pose proof (Esy i Hi) as Ei. unfold circuit_y in Ei. unfold circuit_y. rewrite E2 in Ei |- *. injection Ei as <-. split; [reflexivity|]. split; [exact W2|].
    now rewrite (c5 (omega_j T (N.of_nat i)) _ Rxy), (b5 (omega_j T (N.of_nat i)) q2 E2). }
  apply (C38_honest F E gens cb lg M N nbits gen zeta omega l r u pc beta); auto.
  apply (C38_ab_coeffs F lg M N (fun i => circuit_y F T lg repr rg (N.of_nat i) y) sy ps (dn_left d) (dn_right d) il ir omega u B1 A' B'); auto.
  - intros i Hi. assert (i < length ss) by lia. destruct (Sy i H) as (Q1 & Q2 & _). split; assumption.
  - intros id. rewrite Hom. apply Sy. pose proof (internal_lt id). lia.
  - cbn [d open_points dn_left cd_cid]. rewrite Cl. apply Sy; auto.
  - cbn [d open_points dn_right cd_cid]. rewrite Cr. apply Sy; auto.
Qed.
Print Assumptions C38_step_coeffs.
(** in particular for the claims of the builder *)
Theorem C38_step : forall (F : Field) (T : TwoAdic F) (threads lg : nat) (repr : F -> N)
    (hash : list N -> list N) (to_bytes : F -> list N) (from_uniform : list N -> F) (f_of_u64 : N -> F)
    (b : builder F) (rg : registry F) (ss : list (F -> F -> F))
    (E : FMod F) (gens : list E) (cb : F) M N nbits (gen zeta : F)
    (l r : pvals F) (u : uvals F) (pc : evalout (poly F * E)) (beta : F) il ir (B1 : list (poly F * poly F)) (A' B' : list (poly F)),
  let NC := 4 * 2 ^ lg in
  let ps := eo_map fst pc in
  let omega id := omega_j T (N.of_nat (internal_index id)) in
  let d := open_points omega l r u in
  let w := uv_el u Uw in let y := uv_el u Uy in let z := uv_el u Uz in let x := uv_el u Ux in let uu := uv_el u Uu in
  (* the registry *)
  ta_S T <= 32 -> 0 < threads ->
  finalize F T lg repr hash to_bytes from_uniform f_of_u64 b = Some rg ->
  Forall2 (obj_is lg) (rb_internal F b ++ rb_bonding F b ++ rb_steps F b ++ rb_app F b) ss ->
  (forall a a' : F, fpow a (2 ^ Nat.log2_up (length ss)) = f1 -> fpow a' (2 ^ Nat.log2_up (length ss)) = f1 -> omega_key F repr a = omega_key F repr a' -> a = a') ->
  13 <= length ss -> il < length ss -> ir < length ss ->
  pv_cid l = omega_j T (N.of_nat il) -> pv_cid r = omega_j T (N.of_nat ir) ->
  (* its restrictions *)
  reg_wx F lg repr rg w (uv_el (pv_uni l) Ux) = Some (eo_wx0 ps) -> reg_wx F lg repr rg w (uv_el (pv_uni r) Ux) = Some (eo_wx1 ps) ->
  reg_wy F lg repr rg w y = Some (eo_wy ps) -> reg_xy F threads lg rg x y = Some (eo_xy ps) ->
  reg_xy F threads lg rg (uv_el (pv_uni l) Ux) (uv_el (pv_uni l) Uy) = Some (ce_xy (eo_left ps)) ->
  reg_xy F threads lg rg (uv_el (pv_uni r) Ux) (uv_el (pv_uni r) Uy) = Some (ce_xy (eo_right ps)) ->
  (* the folded claims *)
  0 < M -> 22 <= M * N ->
  b_build (2 ^ lg) NC z (fun i => circuit_y F T lg repr rg (N.of_nat i) y) (source_of [child_view (eo_left ps) il; child_view (eo_right ps) ir]) = Some B1 ->
  fold_inner (poly_foldable NC) M N (map fst B1) (finv (uv_el u Umu)) = Some A' ->
  fold_outer (poly_foldable NC) A' (finv (uv_el u Umu')) = Some (eo_a ps) ->
  fold_inner (poly_foldable NC) M N (map snd B1) (fmul (uv_el u Umu) (uv_el u Unu)) = Some B' ->
  fold_outer (poly_foldable NC) B' (fmul (uv_el u Umu') (uv_el u Unu')) = Some (eo_b ps) ->
  (* the commitments, the children and the challenges *)
  NC <= length gens ->
  Forall (fun p => wf 0 NC (fst p) /\ p_commit NC gens (fst p) = Some (snd p)) (eval_write pc) ->
  uv_el (pv_uni l) Uv = p_eval NC (ce_p (eo_left ps)) (uv_el (pv_uni l) Uu) ->
  uv_el (pv_uni r) Uv = p_eval NC (ce_p (eo_right ps)) (uv_el (pv_uni r) Uu) ->
  pts_on cb (pv_uni l) -> pts_on cb (pv_uni r) ->
  x <> f0 -> z <> f0 -> uv_el u Umu <> f0 -> uv_el u Umu' <> f0 -> ~ In uu (points_of d) ->
  is_beta true nbits gen zeta (uv_el u Upre_beta) beta ->
  exists f cf p c, native_f NC ps (dn_left d) (dn_right d) w y z x (uv_el u Ualpha) omega = Some f /\ p_commit NC gens f = Some cf /\
    compute_p NC 37 beta uu (f, cf) pc = Some (p, c, p_eval NC p uu) /\ wf 0 NC p /\ p_commit NC gens p = Some c /\
    (compute_v_rel true cb lg M N nbits gen zeta omega l r (native_query NC ps (dn_left d) (dn_right d) w y z x omega) (native_eval NC ps uu) u
       <-> uv_el u Uv = p_eval NC p uu).
Proof.
  intros F T threads lg repr hash to_bytes from_uniform f_of_u64 b rg ss E gens cb M N nbits gen zeta l r u pc beta il ir B1 A' B' NC ps omega d w y z x uu
    S32 TP Fin Obj Inj L13 Lil Lir Cl Cr Rwx0 Rwx1 Rwy Rxy Rxyl Rxyr HM HMN EB EA1 EA EB1 EB2 Hg Hc Vl Vr Pl Pr Hx Hz Hmu Hmu' Hu Hb.
  set (sy := fun i => match circuit_y F T lg repr rg (N.of_nat i) y with Some q => q | None => [] end).
  pose proof (C21_registry F T threads lg repr hash to_bytes from_uniform f_of_u64 b rg ss S32 TP Fin Obj Inj) as R. cbv zeta in R. fold NC in R.
  assert (Sy : forall i, i < length ss -> circuit_y F T lg repr rg (N.of_nat i) y = Some (sy i) /\ wf 0 NC (sy i)).
  { intros i Hi. destruct (R x y) as (P' & _ & _ & Rm & _). destruct (Rm (omega_j T (N.of_nat i))) as (_ & _ & (q2 & E2 & W2 & _) & _).
    unfold sy, circuit_y. rewrite E2. auto. }
  apply (C38_step_coeffs F T threads lg repr hash to_bytes from_uniform f_of_u64 b rg ss sy E gens cb M N nbits gen zeta omega l r u pc beta il ir B1 A' B'); auto.
  - intros i Hi. apply Sy. exact Hi.
  - destruct (C43_builder F unit (2 ^ lg) z (fun i => circuit_y F T lg repr rg (N.of_nat i) y) sy [child_view (eo_left ps) il; child_view (eo_right ps) ir]) as (l' & El & H2).
    + discriminate.
    + intros i Hi. apply Sy. lia.
    + assert (W : forall p, In p (eval_write ps) -> wf 0 NC p).
      { change (eval_write ps) with (map fst (eval_write pc)). intros p Hp. apply in_map_iff in Hp. destruct Hp as (q0 & <- & Hq). rewrite Forall_forall in Hc. apply (Hc q0 Hq). }
      intros v [<-|[<-|[]]]; (split; [|apply Sy; cbn [child_view pv_app]; assumption]); intros c; apply W;
      unfold eval_write, ceval_write; cbn [map app rxid_all]; destruct c as [| |[]]; cbn [pv_rx child_view In]; tauto.
    + fold NC in El, H2. rewrite EB in El. injection El as <-. exact H2.
Qed.
Print Assumptions C38_step.
