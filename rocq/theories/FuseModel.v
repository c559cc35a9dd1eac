(** The prover's step (crates/ragu_pcd/src/fuse/): from two child proofs and the
    outcome of an application step to everything of the new proof except the
    assembled traces, in the order in which fuse/mod.rs computes it.

    Simplifications.  [Err] and panics are both [None]; the step as a whole tells apart
    three reasons ([fault]).  Random field elements are
    arguments ([blinds]).  The transcript is the duplex sponge of SpongeSpec.v on
    values; that the transcript gadget run by the emulator is this sponge is C34, C35
    and C46.  Commitments are group elements; [aff] and [aff'] give the affine
    coordinates of points of the host and of the nested curve, [None] at infinity.
    The registry polynomial in w is computed by one thread (its value does not depend
    on the number: C21).  The contents of a stage are the list of its wire values.
    Left out: the traces of the application circuit, of the five recursion circuits
    and of the endoscaling steps, which are arguments of [fuse_finish]; the coverage
    assertion of _11_circuits.rs:139. *)
From Coq Require Import List Arith NArith Bool.
From Verif Require Import FieldDef ModDef ArithModel FFTModel SparseModel GadgetModel FoldModel SpongeModel SpongeSpec CircModel RegModel StageModel CompileModel ClaimModel PcdModel
  AppModel EscModel RecModel RecSpec RecStageModel RecStageSpec EmuModel QvModel VerifyModel.
Import ListNotations.
Local Open Scope nat_scope.

(** internal/endoscalar.rs:35-37 with fuse/_10_p.rs:131: f, 15 commitments per child, 6 of the step *)
Definition NUM_ENDOSCALING_POINTS : nat := 37.

Section Fuse.
  Variables (F Fs : Field) (H : FMod F) (Hs : FMod Fs).
  Variables (aff : H -> option (Fs * Fs)) (aff' : Hs -> option (F * F)).
  Variables (T : TwoAdic F) (lg : nat) (repr : F -> N) (native : registry F).
  Variables (gens : list H) (gens' : list Hs).
  Variables (cb : F) (hs M N' : nat) (P : pparams F) (of_u : BinNums.N -> F) (tag : list BinNums.N)
    (nbits : nat) (gen : F) (fsqrt : F -> option F) (zeta : F).
  Local Notation n := (rk_n lg).
  Local Notation nc := (rk_nc lg).
  Local Notation Poly := (list (nat * list F)).
  Local Notation Polys := (list (nat * list Fs)).

  (** proof/components.rs: a proof with the commitments that the next step reads *)
  Record fproof := mk_fproof { fp_proof : proof F Fs H; fp_cm : rxcomp -> H; fp_xy_cm : H }.
  (** the random field elements drawn by a step: one per stage polynomial *)
  Record blinds := mk_blinds { bl_pre : F; bl_ie : F; bl_oe : F; bl_query : F; bl_eval : F;
                               bl_bridge : upt -> Fs; bl_esc : Fs; bl_pts : Fs }.

  (** proof/components.rs:20-35 [RxTriple]: a polynomial with its commitment *)
  Definition commit_rx (rx : Poly) : option (Poly * H) := option_map (pair rx) (p_commit nc gens rx).
  (** proof/components.rs:43-57 [Bridge::commit] of the stage polynomial of
      internal/nested/stages/*.rs, whose witness allocates the coordinates of its points
      ([None]: one of them at infinity) *)
  Definition xys (ps : list (Fs * Fs)) : list Fs := flat_map (fun p => [fst p; snd p]) ps.
  Definition bridge_commit (parents : list nat) (values : nat) (blind : Fs) (pts : list H) : option (bridge F Fs) :=
    obind (opt_all aff pts) (fun ps =>
    obind (stage_rx n parents values blind (xys ps)) (fun rx =>
    option_map (fun c => mk_bridge rx (aff' c)) (p_commit nc gens' rx))).

  (** ** transcript *)
  (** mod.rs:65-67 and alike: [Point::constant] fails at infinity; a point is written x
      then y *)
  Definition tr_absorb (d : duplex F) (b : bridge F Fs) : option (duplex F) :=
    match br_commitment b with
    | None => None
    | Some (x, y) => Some (d_absorb (pp_RATE P) (poseidon P) (d_absorb (pp_RATE P) (poseidon P) d x) y)
    end.
  Definition tr_squeeze (d : duplex F) : option (F * duplex F) :=
    match d_squeeze (pp_RATE P) (poseidon P) d with inr r => Some r | inl _ => None end.
  (** internal/transcript.rs [Transcript::new] *)
  Definition tr_new : duplex F := fold_left (d_absorb (pp_RATE P) (poseidon P)) (tag_values F of_u tag) (d_new (pp_T P)).
  (** internal/transcript.rs [save_state]: the state after the pending permutation *)
  Definition tr_save (d : duplex F) : option (list F) :=
    match d_save_resume (poseidon P) d with inr d' => Some (d_vec d') | inl _ => None end.

  (** ** _02_preamble.rs *)
  Section Oe.
    Variable W : Type.
    Variable one : W.
    Local Notation G := (G F W).
    (** stages/preamble.rs:236-262 [Stage::witness] *)
    Definition preamble_witness (l r : proof F Fs H) (ol or : list F) : G (preamble F W) :=
      left <- inputs_alloc F Fs H W one cb hs T l ol ;;
      right <- inputs_alloc F Fs H W one cb hs T r or ;;
      GRet (mk_preamble F W left right).
    (** the wires of the gadget, in the order of its fields (preamble.rs:124-145) *)
    Definition pin_elems (i : pinputs F W) : list (elem F W) :=
      pi_left F W i ++ pi_right F W i ++ pi_out F W i ++ [pi_cid F W i] ++ uout_write F W (pi_uni F W i).
    Definition preamble_elems (p : preamble F W) : list (elem F W) :=
      pin_elems (pr_left F W p) ++ pin_elems (pr_right F W p).

    (** ** _05_outer_error.rs:69-141, the emulated part *)
    Fixpoint oe_groups (cf : cfolder F W) (ky : nat -> elem F W) (i : nat) (errs : list (list F)) : G (list (elem F W)) :=
      match errs with
      | [] => GRet []
      | e :: rest =>
          es <- alloc_all F W (map Some e) ;;
          v <- fold_products one true M cf es (map ky (seq (i * M) M)) ;;
          vs <- oe_groups cf ky (S i) rest ;; GRet (v :: vs)
      end.
    Definition oe_emulated (l r : proof F Fs H) (ol or : list F) (y mu nu : F) (errs : list (list F))
        : G (child_ky (elem F W) * child_ky (elem F W) * list (elem F W)) :=
      pre <- preamble_witness l r ol or ;;
      ye <- e_alloc F W (Some y) ;;
      lu <- unified_ky_values F W one true (pr_left F W pre) ye ;;
      ru <- unified_ky_values F W one true (pr_right F W pre) ye ;;
      la <- application_ky F W one true (pr_left F W pre) ye ;;
      let lky := mk_child_ky la (fst lu) (snd lu) in
      ra <- application_ky F W one true (pr_right F W pre) ye ;;
      let rky := mk_child_ky ra (fst ru) (snd ru) in
      mue <- e_alloc F W (Some mu) ;;
      nue <- e_alloc F W (Some nu) ;;
      zero <- e_zero F W one true ;;
      let ky := ky_values (two_ky zero (uo_el F W (pi_uni F W (pr_left F W pre)) Uc) (uo_el F W (pi_uni F W (pr_right F W pre)) Uc) lky rky) in
      cf <- cf_new one mue nue ;;
      collapsed <- oe_groups cf ky 0 errs ;;
      GRet (lky, rky, collapsed).
  End Oe.
  (** _02_preamble.rs:43-71 with staging/mod.rs:354-370: the extractor's wires *)
  Definition preamble_values (l r : proof F Fs H) (ol or : list F) : option (list F) :=
    option_map (fun p => map (ew F F) (preamble_elems F p)) (emulate_wired (preamble_witness F f1 l r ol or)).
  (** [value().take()] of the emulated elements *)
  Definition ky_taken (k : child_ky (elem F unit)) : option (child_ky F) :=
    match ev F unit (ck_application k), ev F unit (ck_unified k), ev F unit (ck_bridge k) with
    | Some a, Some u, Some b => Some (mk_child_ky a u b)
    | _, _, _ => None
    end.
  Definition outer_emulated (l r : proof F Fs H) (ol or : list F) (y mu nu : F) (errs : list (list F))
      : option (child_ky F * child_ky F * list F) :=
    obind (emulate_wireless (oe_emulated unit tt l r ol or y mu nu errs)) (fun t =>
    obind (ky_taken (fst (fst t))) (fun lk =>
    obind (ky_taken (snd (fst t))) (fun rk =>
    option_map (pair (lk, rk)) (opt_all (ev F unit) (snd t))))).

  (** ** the children *)
  (** fuse/claims.rs:143-200 [FoldKey], [FuseProofSource]; [false] is the left child *)
  Definition fold_key : Type := bool * rxcomp.
  Definition rxid_code (i : rxid) : nat :=
    match i with
    | RxApplication => 0 | RxHashes1 => 1 | RxHashes2 => 2 | RxInnerCollapse => 3 | RxOuterCollapse => 4 | RxComputeV => 5
    | RxPreamble => 6 | RxInnerError => 7 | RxOuterError => 8 | RxQuery => 9 | RxEval => 10
    end.
  Definition rxcomp_code (c : rxcomp) : nat := match c with AbA => 11 | AbB => 12 | Rx i => rxid_code i end.
  Definition fold_key_eqb (a b : fold_key) : bool := Bool.eqb (fst a) (fst b) && (rxcomp_code (snd a) =? rxcomp_code (snd b)).
  Definition fuse_source (l r : fproof) : source rxcomp (fold_key * Poly) nat :=
    two_source (fun c => ((false, c), native_rx (fp_proof l) c)) (fun c => ((true, c), native_rx (fp_proof r) c))
      (N.to_nat (pf_circuit_id (fp_proof l))) (N.to_nat (pf_circuit_id (fp_proof r))).
  Definition fuse_get (l r : fproof) (k : fold_key) : H := fp_cm (if fst k then r else l) (snd k).
  (** the polynomials of a child with their commitments, its challenges and its circuit *)
  Definition child_polys (c : fproof) : ceval (Poly * H) :=
    let p := fp_proof c in
    mk_ceval (fun i => (native_rx p (Rx i), fp_cm c (Rx i))) (pf_a p, fp_cm c AbA) (pf_b p, fp_cm c AbB)
      (pf_registry_xy p, fp_xy_cm c) (pf_p p, pf_p_commitment p).
  Definition child_denoms (c : fproof) : cdenoms F :=
    let p := fp_proof c in mk_cdenoms (pf_chal p Ch_u) (pf_chal p Ch_y) (pf_chal p Ch_x) (omega_j T (pf_circuit_id p)).
  Definition ev_fst {A B : Type} (e : evalout (A * B)) : evalout A :=
    let c (x : ceval (A * B)) := mk_ceval (fun i => fst (ce_rx x i)) (fst (ce_a x)) (fst (ce_b x)) (fst (ce_xy x)) (fst (ce_p x)) in
    mk_evalout (c (eo_left e)) (c (eo_right e)) (fst (eo_wx0 e)) (fst (eo_wx1 e)) (fst (eo_wy e)) (fst (eo_a e)) (fst (eo_b e)) (fst (eo_xy e)).

  (** internal/endoscalar.rs:238-245 (ragu_primitives) [extract_endoscalar] *)
  Definition extract_endoscalar (v : F) : option N :=
    obind (emulate_wireless (e <- e_alloc F unit (Some v) ;; en_extract F unit tt nbits gen fsqrt true e)) (en_value unit).

  (** what a step has computed before its traces are assembled *)
  Record frun := mk_frun {
    fr_pre : Poly * H; fr_ie : Poly * H; fr_oe : Poly * H; fr_query : Poly * H; fr_eval : Poly * H;  (* the stages *)
    fr_ps : evalout (Poly * H);                         (* the polynomials opened by the step *)
    fr_c : F; fr_f : Poly * H; fr_p : Poly * H; fr_v : F;
    fr_endo : N; fr_points : @points_witness F H; fr_esc : Polys; fr_pts : Polys;  (* the other curve *)
    fr_bridge : upt -> bridge F Fs; fr_chal : chal -> F;
    (* the witnesses of the stages, for the circuits *)
    fr_errors : list (list F); fr_outer : ovals F; fr_queries : queryout F; fr_evals : evalout F }.

  (** the number of values of the points stage (endoscalar.rs:185-188) *)
  Definition points_values : nat := 2 * (1 + 36 + 9).

  (** why a step stops: a point at infinity where coordinates are needed, a zero to
      invert, or anything else (an [Err] or a panic on a size, an index or an input) *)
  Inductive fault := AtInfinity | NoInverse | Misfit.
  Definition ebind {A B : Type} (t : fault) (o : option A) (k : A -> fault + B) : fault + B := match o with Some a => k a | None => inl t end.
  Definition pts_fault (pts : list H) : fault := match opt_all aff pts with None => AtInfinity | Some _ => Misfit end.
  Local Notation "x <~ e ;; k" := (ebind Misfit e (fun x => k)) (at level 61, e at next level, right associativity).
  Local Notation "x <~ e @ t ;; k" := (ebind t e (fun x => k)) (at level 61, e at next level, t at next level, right associativity).
  (** fuse/mod.rs:59-163; [ol], [or] are the headers of the children that
      _01_application.rs encodes *)
  Definition fuse_core (l r : fproof) (ol or : list F) (bl : blinds) : fault + frun :=
    let lp := fp_proof l in let rp := fp_proof r in
    (* mod.rs:65-69, _02_preamble.rs *)
    prew <~ preamble_values lp rp ol or ;;
    prerx <~ stage_rx n [] (pre_wires hs) (bl_pre bl) prew ;;
    pre <~ commit_rx prerx ;;
    let children := flat_map (fun c => map (fun i => fp_cm c (Rx i))
      [RxApplication; RxHashes1; RxHashes2; RxInnerCollapse; RxOuterCollapse; RxComputeV]) [l; r] in
    bpre <~ bridge_commit [] 26 (bl_bridge bl PPreamble) (snd pre :: children) @ pts_fault (snd pre :: children) ;;
    d1 <~ tr_absorb tr_new bpre @ AtInfinity ;;
    wd <~ tr_squeeze d1 ;; let w := fst wd in
    (* mod.rs:70-76, _03_s_prime.rs *)
    wx0p <~ reg_wx F lg repr native w (pf_chal lp Ch_x) ;;
    wx1p <~ reg_wx F lg repr native w (pf_chal rp Ch_x) ;;
    wx0 <~ commit_rx wx0p ;;
    wx1 <~ commit_rx wx1p ;;
    bsp <~ bridge_commit [26] 4 (bl_bridge bl PSPrime) [snd wx0; snd wx1] @ pts_fault [snd wx0; snd wx1] ;;
    d2 <~ tr_absorb (snd wd) bsp @ AtInfinity ;;
    yd <~ tr_squeeze d2 ;; let y := fst yd in
    zd <~ tr_squeeze (snd yd) ;; let z := fst zd in
    (* mod.rs:78-86, _04_inner_error.rs *)
    claims <~ fb_build n nc z (fun i => circuit_y F T lg repr native (N.of_nat i) y) (fuse_source l r) ;;
    let ca := map fst claims in let cbs := map snd claims in
    ie <~ inner_error_terms nc M N' (map fst ca) cbs ;;
    ierx <~ stage_rx n [oe_wires N' (pp_T P); pre_wires hs] (ie_wires M N') (bl_ie bl) (concat ie) ;;
    wyp <~ reg_wy F lg repr native w y ;;
    wy <~ commit_rx wyp ;;
    ies <~ commit_rx ierx ;;
    bie <~ bridge_commit [4; 26] 4 (bl_bridge bl PInnerError) [snd ies; snd wy] @ pts_fault [snd ies; snd wy] ;;
    d3 <~ tr_absorb (snd zd) bie @ AtInfinity ;;
    (* mod.rs:88-100 *)
    sponge <~ tr_save d3 ;;
    mud <~ tr_squeeze d3 ;; let mu := fst mud in
    nud <~ tr_squeeze (snd mud) ;; let nu := fst nud in
    (* mod.rs:102-115, _05_outer_error.rs *)
    if feqb mu f0 then inl NoInverse else
    a1 <~ fold_inner (tracked_foldable nc) M N' ca (finv mu) ;;
    b1 <~ fold_inner (poly_foldable nc) M N' cbs (fmul mu nu) ;;
    em <~ outer_emulated lp rp ol or y mu nu ie ;;
    oet <~ outer_error_terms nc N' (map fst a1) b1 ;;
    let oe := mk_ovals oet (snd em) (fst (fst em)) (snd (fst em)) sponge in
    oerx <~ stage_rx n [pre_wires hs] (oe_wires N' (pp_T P)) (bl_oe bl) (oe_write oe) ;;
    oes <~ commit_rx oerx ;;
    boe <~ bridge_commit [4; 4; 26] 2 (bl_bridge bl POuterError) [snd oes] @ pts_fault [snd oes] ;;
    d4 <~ tr_absorb (snd nud) boe @ AtInfinity ;;
    mu'd <~ tr_squeeze d4 ;; let mu' := fst mu'd in
    nu'd <~ tr_squeeze (snd mu'd) ;; let nu' := fst nu'd in
    (* mod.rs:117-120, _06_ab.rs *)
    if feqb mu' f0 then inl NoInverse else
    at_ <~ fold_outer (tracked_foldable nc) a1 (finv mu') ;;
    bp <~ fold_outer (poly_foldable nc) b1 (fmul mu' nu') ;;
    b <~ commit_rx bp ;;
    let a := (fst at_, resolve fold_key_eqb (fuse_get l r) (snd at_)) in
    let c := p_revdot nc (fst a) (fst b) in
    bab <~ bridge_commit [2; 4; 4; 26] 4 (bl_bridge bl PAB) [snd a; snd b] @ pts_fault [snd a; snd b] ;;
    d5 <~ tr_absorb (snd nu'd) bab @ AtInfinity ;;
    xd <~ tr_squeeze d5 ;; let x := fst xd in
    (* mod.rs:122-126, _07_query.rs *)
    xyp <~ reg_xy F 1 lg native x y ;;
    xy <~ commit_rx xyp ;;
    let ps := mk_evalout (child_polys l) (child_polys r) wx0 wx1 wy a b xy in
    let omega := internal_omega T in
    let q := native_query nc (ev_fst ps) (child_denoms l) (child_denoms r) w y z x omega in
    qrx <~ stage_rx n [pre_wires hs] query_wires (bl_query bl) (query_write q) ;;
    qs <~ commit_rx qrx ;;
    bq <~ bridge_commit [4; 2; 4; 4; 26] 4 (bl_bridge bl PQuery) [snd qs; snd xy] @ pts_fault [snd qs; snd xy] ;;
    d6 <~ tr_absorb (snd xd) bq @ AtInfinity ;;
    ald <~ tr_squeeze d6 ;; let alpha := fst ald in
    (* mod.rs:128-144, _08_f.rs *)
    fp <~ native_f nc (ev_fst ps) (child_denoms l) (child_denoms r) w y z x alpha omega ;;
    f <~ commit_rx fp ;;
    bf <~ bridge_commit [4; 4; 2; 4; 4; 26] 2 (bl_bridge bl PF) [snd f] @ pts_fault [snd f] ;;
    d7 <~ tr_absorb (snd ald) bf @ AtInfinity ;;
    ud <~ tr_squeeze d7 ;; let u := fst ud in
    (* mod.rs:146-150, _09_eval.rs *)
    let e := native_eval nc (ev_fst ps) u in
    erx <~ stage_rx n [query_wires; pre_wires hs] eval_wires (bl_eval bl) (eval_write e) ;;
    es <~ commit_rx erx ;;
    be <~ bridge_commit [2; 4; 4; 2; 4; 4; 26] 2 (bl_bridge bl PEval) [snd es] @ pts_fault [snd es] ;;
    d8 <~ tr_absorb (snd ud) be @ AtInfinity ;;
    pbd <~ tr_squeeze d8 ;; let pre_beta := fst pbd in
    (* mod.rs:152-163, _10_p.rs *)
    endo <~ extract_endoscalar pre_beta ;;
    let beta := lift_native F zeta nbits endo in
    pcv <~ compute_p nc NUM_ENDOSCALING_POINTS beta u f ps ;;
    pw <~ points_new NUM_ENDOSCALING_POINTS beta (snd f :: map snd (p_order ps)) ;;
    esc <~ stage_rx n [] nbits (bl_esc bl) (map (fun i => if N.testbit endo (N.of_nat i) then f1 else f0) (seq 0 nbits)) ;;
    pxy <~ opt_all aff (pw_initial pw :: pw_inputs pw ++ pw_interstitials pw) @ AtInfinity ;;
    pts <~ stage_rx n [nbits] points_values (bl_pts bl) (xys pxy) ;;
    inr (mk_frun pre ies oes qs es ps c f (fst pcv) (snd pcv) endo pw esc pts
      (fun b => match b with PPreamble => bpre | PSPrime => bsp | PInnerError => bie | POuterError => boe | PAB => bab | PQuery => bq | PF => bf | PEval => be end)
      (fun ch => match ch with Ch_w => w | Ch_y => y | Ch_z => z | Ch_mu => mu | Ch_nu => nu | Ch_mu' => mu' | Ch_nu' => nu' | Ch_x => x
                 | Ch_alpha => alpha | Ch_u => u | Ch_pre_beta => pre_beta end)
      ie oe q e).

  (** fuse/mod.rs:165-203: the proof, given the circuit's index and the traces
      (_01_application.rs:45-56, _10_p.rs:144-163, _11_circuits.rs:44-137) *)
  Definition fuse_proof (r : frun) (id : N) (ol or : list F) (app h1 h2 ic oc cv : Poly) (steps : list Polys) : proof F Fs H :=
    let ps := fr_ps r in
    mk_proof id ol or app (fst (fr_pre r)) (fst (fr_ie r)) (fst (fr_oe r)) (fst (fr_query r)) (fst (fr_eval r))
      h1 h2 ic oc cv (fst (eo_a ps)) (fst (eo_b ps)) (fr_c r) (fst (eo_xy ps)) (fst (fr_p r)) (snd (fr_p r)) (fr_v r)
      steps (fr_esc r) (fr_pts r) (fr_bridge r) (fr_chal r).
  Definition fuse_finish (r : frun) (id : N) (ol or : list F) (app h1 h2 ic oc cv : Poly) (steps : list Polys) : option fproof :=
    let ps := fr_ps r in
    obind (opt_all (p_commit nc gens) [app; h1; h2; ic; oc; cv]) (fun cs =>
    let cm i := nth i cs m0 in
    Some (mk_fproof (fuse_proof r id ol or app h1 h2 ic oc cv steps)
      (fun c => match c with
                | AbA => snd (eo_a ps) | AbB => snd (eo_b ps)
                | Rx RxApplication => cm 0 | Rx RxHashes1 => cm 1 | Rx RxHashes2 => cm 2
                | Rx RxInnerCollapse => cm 3 | Rx RxOuterCollapse => cm 4 | Rx RxComputeV => cm 5
                | Rx RxPreamble => snd (fr_pre r) | Rx RxInnerError => snd (fr_ie r) | Rx RxOuterError => snd (fr_oe r)
                | Rx RxQuery => snd (fr_query r) | Rx RxEval => snd (fr_eval r)
                end) (snd (eo_xy ps)))).

  (** ** proof/mod.rs:172-286 [trivial_proof] *)
  Definition ones {K : Field} : option (list (nat * list K)) := trace_build nc n [f1] [f1] [f1] [f1].
  Definition trivial_proof (steps : nat) : option fproof :=
    obind (@ones F) (fun o =>
    obind (p_commit nc gens o) (fun cm =>
    obind (@ones Fs) (fun os =>
    obind (p_commit nc gens' os) (fun cms =>
    obind (reg_xy F 1 lg native f1 f1) (fun xy =>
    obind (p_commit nc gens xy) (fun xycm =>
    Some (mk_fproof
      (mk_proof 0%N (repeat f0 hs) (repeat f0 hs) o o o o o o o o o o o o o (p_revdot nc o o) xy o cm (p_eval nc o f1)
         (repeat os steps) os os (fun _ => mk_bridge os (aff' cms)) (fun _ => f1))
      (fun _ => cm) xycm))))))).
End Fuse.
Arguments mk_fproof {F Fs H}. Arguments fp_proof {F Fs H}. Arguments fp_cm {F Fs H}. Arguments fp_xy_cm {F Fs H}.
Arguments mk_blinds {F Fs}. Arguments bl_pre {F Fs}. Arguments bl_ie {F Fs}. Arguments bl_oe {F Fs}. Arguments bl_query {F Fs}. Arguments bl_eval {F Fs}.
Arguments bl_bridge {F Fs}. Arguments bl_esc {F Fs}. Arguments bl_pts {F Fs}.
