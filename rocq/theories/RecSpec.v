(** What the recursion circuits are to check, on field values. *)
From Coq Require Import List Arith NArith Bool.
From Verif Require Import FieldDef GadgetModel GadgetSpec PointSpec EndoSpec EndoProofs TxzProofs TProofs SpongeModel SpongeSpec
  FoldModel FoldSpec FoldProofs2 PcdModel PcdSpec PcdProofs2 RecModel.
Import ListNotations.
Open Scope f_scope.

Section RecSpec.
  Variable F : Field.
  (** an instance *)
  Record uvals := mk_uvals { uv_pt : upt -> F * F; uv_el : uel -> F }.
  Definition u_values (u : uvals) (fs : list ufield) : list F :=
    flat_map (fun f => match f with FP p => [fst (uv_pt u p); snd (uv_pt u p)] | FE e => [uv_el u e] end) fs.
  (** its 29 values, in the order of the transcript *)
  Definition u_write (u : uvals) : list F :=
    let pt p := [fst (uv_pt u p); snd (uv_pt u p)] in
    pt PPreamble ++ [uv_el u Uw] ++ pt PSPrime ++ map (uv_el u) [Uy; Uz] ++ pt PInnerError ++ map (uv_el u) [Umu; Unu]
    ++ pt POuterError ++ map (uv_el u) [Umu'; Unu'; Uc] ++ pt PAB ++ [uv_el u Ux] ++ pt PQuery ++ [uv_el u Ualpha]
    ++ pt PF ++ [uv_el u Uu] ++ pt PEval ++ map (uv_el u) [Upre_beta; Uv].
  Lemma u_write_all u : u_write u = u_values u uall.
  Proof. reflexivity. Qed.
  (** what the parent sees of a child proof; the native parts of a stage *)
  Record pvals := mk_pvals { pv_left : list F; pv_right : list F; pv_out : list F; pv_cid : F; pv_uni : uvals }.
  Record ovals := mk_ovals { ov_errs : list F; ov_collapsed : list F; ov_left : child_ky F; ov_right : child_ky F; ov_sponge : list F }.
  Definition pts_on (cb : F) (u : uvals) : Prop := forall p, on_curve cb (uv_pt u p).

  (** the polynomial of an instance vector: o_0 y^n + ... + o_{n-1} y + 1 *)
  Definition k_of (os : list F) (y : F) : F := peval (1 :: rev os) y.

  (** ** transcript *)
  Definition t_pt (u : uvals) (p : upt) : list (dop F) := [DAbsorb (fst (uv_pt u p)); DAbsorb (snd (uv_pt u p))].
  Definition ops_1 (tagv : list F) (u : uvals) : list (dop F) :=
    map DAbsorb tagv ++ t_pt u PPreamble ++ [DSqueeze] ++ t_pt u PSPrime ++ [DSqueeze; DSqueeze] ++ t_pt u PInnerError.
  Definition ops_2 (u : uvals) : list (dop F) :=
    [DSqueeze; DSqueeze] ++ t_pt u POuterError ++ [DSqueeze; DSqueeze] ++ t_pt u PAB ++ [DSqueeze] ++ t_pt u PQuery ++ [DSqueeze]
    ++ t_pt u PF ++ [DSqueeze] ++ t_pt u PEval ++ [DSqueeze].
  Definition chals_1 (u : uvals) : list F := map (uv_el u) [Uw; Uy; Uz].
  Definition chals_2 (u : uvals) : list F := map (uv_el u) [Umu; Unu; Umu'; Unu'; Ux; Ualpha; Uu; Upre_beta].
  (** the first half ends by saving the sponge, the second resumes it *)
  Definition transcript_1 (P : pparams F) (tagv : list F) (u : uvals) (sponge : list F) : Prop :=
    exists d, d_run (pp_RATE P) (poseidon P) (ops_1 tagv u ++ [DSaveResume]) (d_new (pp_T P)) = inr (chals_1 u, d) /\ d_vec d = sponge.
  Definition transcript_2 (P : pparams F) (u : uvals) (sponge : list F) : Prop :=
    exists d, d_run (pp_RATE P) (poseidon P) (ops_2 u) (mk_duplex sponge 0 true 0) = inr (chals_2 u, d).
  (** every challenge from one uninterrupted transcript *)
  Definition transcript (P : pparams F) (tagv : list F) (u : uvals) : Prop :=
    exists d, d_run (pp_RATE P) (poseidon P) (ops_1 tagv u ++ ops_2 u) (d_new (pp_T P)) = inr (chals_1 u ++ chals_2 u, d).

  (** the three instance polynomials of a child at y: of its application circuit, of
      the circuits with the unified instance, of hashes_1 *)
  Definition child_k (c : pvals) (y : F) : child_ky F :=
    mk_child_ky (k_of (pv_left c ++ pv_right c ++ pv_out c) y) (k_of (u_write (pv_uni c) ++ [0]) y)
                (k_of (u_write (pv_uni c) ++ pv_left c ++ pv_right c ++ [0]) y).

  (** ** hashes_1 *)
  Definition hashes_1_rel (P : pparams F) (tagv : list F) (log2 : nat) (l r : pvals) (oe : ovals) (u : uvals) : Prop :=
    pv_cid l ^ (2 ^ log2) = 1 /\ pv_cid r ^ (2 ^ log2) = 1 /\
    ov_left oe = child_k l (uv_el u Uy) /\ ov_right oe = child_k r (uv_el u Uy) /\
    transcript_1 P tagv u (ov_sponge oe).

  (** ** the collapse circuits; row i of the first layer takes claims i M .. i M + M - 1 *)
  Definition ky_of (l r : pvals) (oe : ovals) : nat -> F :=
    ky_values (two_ky 0 (uv_el (pv_uni l) Uc) (uv_el (pv_uni r) Uc) (ov_left oe) (ov_right oe)).
  Definition inner_collapse_rel (M : nat) (l r : pvals) (oe : ovals) (ie : list (list F)) (u : uvals) : Prop :=
    uv_el u Umu <> 0 /\
    forall i, (i < length ie)%nat ->
      nth i (ov_collapsed oe) 0
      = weigh M (finv (uv_el u Umu)) (uv_el u Umu * uv_el u Unu)
          (entry M (nth i ie []) (map (ky_of l r oe) (seq (i * M) M))).
  Definition is_base (l r : pvals) : Prop := last (pv_out l) 0 = 1 /\ last (pv_out r) 0 = 1.
  Definition outer_collapse_rel (N : nat) (l r : pvals) (oe : ovals) (u : uvals) : Prop :=
    uv_el u Umu' <> 0 /\
    (is_base l r \/
     uv_el u Uc = weigh N (finv (uv_el u Umu')) (uv_el u Umu' * uv_el u Unu') (entry N (ov_errs oe) (ov_collapsed oe))).

  (** ** compute_v *)
  (** the points at which polynomials are opened *)
  Definition open_points (omega : icid -> F) (l r : pvals) (u : uvals) : denoms F :=
    let ch c := mk_cdenoms (uv_el (pv_uni c) Uu) (uv_el (pv_uni c) Uy) (uv_el (pv_uni c) Ux) (pv_cid c) in
    mk_denoms (ch l) (ch r) (uv_el u Uw) (uv_el u Ux) (uv_el u Uy) (uv_el u Ux * uv_el u Uz) omega.
  Definition points_of (d : denoms F) : list F :=
    let ch c := [cd_u c; cd_y c; cd_x c; cd_cid c] in
    ch (dn_left d) ++ ch (dn_right d) ++ [dn_w d; dn_x d; dn_y d; dn_xz d] ++ map (dn_internal d) icid_all.
  (** A(xz), B(x) from the claimed evaluations *)
  Definition axbx (n M N : nat) (q : queryout F) (u : uvals) : F * F :=
    let cs := build_claims (eval_source q) in
    let mu := uv_el u Umu in let mu' := uv_el u Umu' in
    (two_layer M N (map (ev_a F (uv_el u Uz)) cs) (finv mu) (finv mu'),
     two_layer M N (map (ev_b F (qo_fixed q) (t_spec F n (uv_el u Ux) (uv_el u Uz))) cs)
               (mu * uv_el u Unu) (mu' * uv_el u Unu')).
  (** the quotients (p(u) - v) / (u - x) combined by descending powers of alpha *)
  Definition fold_quotients (al uu : F) (qs : list (F * F * F)) : F :=
    hfold (length qs) al (fun i => let '(pu, v, x) := nth i qs (0, 0, 0) in (pu - v) / (uu - x)).
  (** the endoscalar of a field element: bit i says whether a + i is a square (free
      when a + i = 0; the honest prover's is then set) *)
  Definition is_beta (honest : bool) (nbits : nat) (gen zeta pre_beta beta : F) : Prop :=
    exists bs, length bs = nbits /\
      (forall i, (i < nbits)%nat -> if honest then nth i bs false = true <-> square (pre_beta + fnat i)
                                   else bit_ok F gen pre_beta i (nth i bs false)) /\
      beta = lift_bits F zeta bs ((zeta + 1) + (zeta + 1)).
  Definition compute_v_rel (honest : bool) (cb : F) (k M N nbits : nat) (gen zeta : F) (omega : icid -> F)
             (l r : pvals) (q : queryout F) (e : evalout F) (u : uvals) : Prop :=
    pts_on cb (pv_uni l) /\ pts_on cb (pv_uni r) /\
    uv_el u Ux <> 0 /\ uv_el u Uz <> 0 /\ uv_el u Umu <> 0 /\ uv_el u Umu' <> 0 /\
    ~ In (uv_el u Uu) (points_of (open_points omega l r u)) /\
    exists beta, is_beta honest nbits gen zeta (uv_el u Upre_beta) beta /\
      let ab := axbx (2 ^ k) M N q u in
      let qs := poly_queries e q (uv_el (pv_uni l) Uv) (uv_el (pv_uni r) Uv) (open_points omega l r u) (fst ab) (snd ab) in
      let comps := fold_quotients (uv_el u Ualpha) (uv_el u Uu) qs :: eval_write e in
      uv_el u Uv = hfold (length comps) beta (fun i => nth i comps 0).
End RecSpec.
Arguments mk_uvals {F}. Arguments uv_pt {F}. Arguments uv_el {F}. Arguments u_values {F}. Arguments u_write {F}.
Arguments mk_pvals {F}. Arguments pv_left {F}. Arguments pv_right {F}. Arguments pv_out {F}. Arguments pv_cid {F}. Arguments pv_uni {F}.
Arguments mk_ovals {F}. Arguments ov_errs {F}. Arguments ov_collapsed {F}. Arguments ov_left {F}. Arguments ov_right {F}. Arguments ov_sponge {F}.
Arguments pts_on {F}. Arguments k_of {F}. Arguments t_pt {F}. Arguments ops_1 {F}. Arguments ops_2 {F}. Arguments chals_1 {F}. Arguments chals_2 {F}.
Arguments transcript_1 {F}. Arguments transcript_2 {F}. Arguments transcript {F}. Arguments child_k {F}.
Arguments hashes_1_rel {F}. Arguments ky_of {F}. Arguments inner_collapse_rel {F}. Arguments is_base {F}. Arguments outer_collapse_rel {F}.
Arguments open_points {F}. Arguments points_of {F}. Arguments axbx {F}. Arguments fold_quotients {F}. Arguments is_beta {F}.
Arguments compute_v_rel {F}.
