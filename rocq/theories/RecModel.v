(** The recursion circuits (crates/ragu_pcd/src/internal/native/circuits) on their
    stages (internal/native/stages) and the unified instance (internal/native/unified.rs).
    Stage outputs are inputs here: the wires injected by [StageGuard] (StageModel.v).
    [Err] and panics are [GErr]. *)
From Coq Require Import List Arith NArith ZArith Bool.
From Verif Require Import FieldDef ArithModel GadgetModel SpongeModel FoldModel PcdModel.
Import ListNotations.
Open Scope g_scope.

(** unified.rs:243-286: the 21 fields, points and elements, in order *)
Inductive upt := PPreamble | PSPrime | PInnerError | POuterError | PAB | PQuery | PF | PEval.
Inductive uel := Uw | Uy | Uz | Umu | Unu | Umu' | Unu' | Uc | Ux | Ualpha | Uu | Upre_beta | Uv.
Inductive ufield := FP (p : upt) | FE (e : uel).
Definition uall : list ufield :=
  [FP PPreamble; FE Uw; FP PSPrime; FE Uy; FE Uz; FP PInnerError; FE Umu; FE Unu; FP POuterError;
   FE Umu'; FE Unu'; FE Uc; FP PAB; FE Ux; FP PQuery; FE Ualpha; FP PF; FE Uu; FP PEval; FE Upre_beta; FE Uv].
Definition upt_eqb (a b : upt) : bool :=
  match a, b with
  | PPreamble, PPreamble | PSPrime, PSPrime | PInnerError, PInnerError | POuterError, POuterError
  | PAB, PAB | PQuery, PQuery | PF, PF | PEval, PEval => true
  | _, _ => false
  end.
Definition uel_eqb (a b : uel) : bool :=
  match a, b with
  | Uw, Uw | Uy, Uy | Uz, Uz | Umu, Umu | Unu, Unu | Umu', Umu' | Unu', Unu' | Uc, Uc | Ux, Ux
  | Ualpha, Ualpha | Uu, Uu | Upre_beta, Upre_beta | Uv, Uv => true
  | _, _ => false
  end.
Definition ufield_eqb (a b : ufield) : bool :=
  match a, b with FP p, FP q => upt_eqb p q | FE x, FE y => uel_eqb x y | _, _ => false end.

(** unified.rs:217-220 [Coverage] *)
Definition coverage := ufield -> bool.
Definition cov_default : coverage := fun _ => false.
(** unified.rs:139-141, 230-236 [assert_complete]; false is the panic *)
Definition assert_complete (c : coverage) : bool := forallb c uall.

(** unified.rs:125-131 [Instance]; a point is [None] at infinity *)
Record uinst (F : Field) := mk_uinst { ui_pt : upt -> option (F * F); ui_el : uel -> F; ui_cov : coverage }.
Arguments mk_uinst {F}. Arguments ui_pt {F}. Arguments ui_el {F}. Arguments ui_cov {F}.

(** values with one entry per internal circuit or per trace are functions of the
    index (native/mod.rs:100-176 [InternalCircuitValues], 225-293 [RxValues]) *)
(** stages/eval.rs:66-78, 102-120 *)
Record ceval (T : Type) := mk_ceval { ce_rx : rxid -> T; ce_a : T; ce_b : T; ce_xy : T; ce_p : T }.
Record evalout (T : Type) := mk_evalout { eo_left : ceval T; eo_right : ceval T; eo_wx0 : T; eo_wx1 : T;
  eo_wy : T; eo_a : T; eo_b : T; eo_xy : T }.
(** stages/query.rs:196-220, 257-270 *)
Record cquery (T : Type) := mk_cquery { cq_rx : rxid -> T; cq_a : T; cq_b : T; cq_child_xy_w : T;
  cq_xy_cid : T; cq_wy_x : T }.
Record queryout (T : Type) := mk_queryout { qo_fixed : icid -> T; qo_wxy : T; qo_left : cquery T; qo_right : cquery T }.
(** circuits/compute_v.rs:247-277 *)
Record cdenoms (T : Type) := mk_cdenoms { cd_u : T; cd_y : T; cd_x : T; cd_cid : T }.
Record denoms (T : Type) := mk_denoms { dn_left : cdenoms T; dn_right : cdenoms T; dn_w : T; dn_x : T; dn_y : T; dn_xz : T;
  dn_internal : icid -> T }.
Arguments mk_ceval {T}. Arguments ce_rx {T}. Arguments ce_a {T}. Arguments ce_b {T}. Arguments ce_xy {T}. Arguments ce_p {T}.
Arguments mk_evalout {T}. Arguments eo_left {T}. Arguments eo_right {T}. Arguments eo_wx0 {T}. Arguments eo_wx1 {T}.
Arguments eo_wy {T}. Arguments eo_a {T}. Arguments eo_b {T}. Arguments eo_xy {T}.
Arguments mk_cquery {T}. Arguments cq_rx {T}. Arguments cq_a {T}. Arguments cq_b {T}. Arguments cq_child_xy_w {T}.
Arguments cq_xy_cid {T}. Arguments cq_wy_x {T}.
Arguments mk_queryout {T}. Arguments qo_fixed {T}. Arguments qo_wxy {T}. Arguments qo_left {T}. Arguments qo_right {T}.
Arguments mk_cdenoms {T}. Arguments cd_u {T}. Arguments cd_y {T}. Arguments cd_x {T}. Arguments cd_cid {T}.
Arguments mk_denoms {T}. Arguments dn_left {T}. Arguments dn_right {T}. Arguments dn_w {T}. Arguments dn_x {T}.
Arguments dn_y {T}. Arguments dn_xz {T}. Arguments dn_internal {T}.

(** the derived [Write] of eval.rs:66-78, 102-120: fields in order, [RxValues] in the order of [ALL] *)
Definition ceval_write {T : Type} (c : ceval T) : list T := map (ce_rx c) rxid_all ++ [ce_a c; ce_b c; ce_xy c; ce_p c].
Definition eval_write {T : Type} (e : evalout T) : list T :=
  ceval_write (eo_left e) ++ ceval_write (eo_right e) ++ [eo_wx0 e; eo_wx1 e; eo_wy e; eo_a e; eo_b e; eo_xy e].
(** compute_v.rs:559-610 [poly_queries]: (p(u), v, 1/(u - x)); [vl], [vr] are
    [preamble.left.unified.v], [preamble.right.unified.v] *)
Definition poly_queries {T : Type} (e : evalout T) (q : queryout T) (vl vr : T) (d : denoms T) (ax bx : T) : list (T * T * T) :=
  [(ce_p (eo_left e), vl, cd_u (dn_left d)); (ce_p (eo_right e), vr, cd_u (dn_right d));
   (ce_xy (eo_left e), cq_child_xy_w (qo_left q), dn_w d); (ce_xy (eo_right e), cq_child_xy_w (qo_right q), dn_w d);
   (eo_wx0 e, cq_child_xy_w (qo_left q), cd_y (dn_left d)); (eo_wx1 e, cq_child_xy_w (qo_right q), cd_y (dn_right d));
   (eo_wx0 e, cq_wy_x (qo_left q), dn_y d); (eo_wx1 e, cq_wy_x (qo_right q), dn_y d);
   (eo_wy e, cq_wy_x (qo_left q), cd_x (dn_left d)); (eo_wy e, cq_wy_x (qo_right q), cd_x (dn_right d));
   (eo_wy e, qo_wxy q, dn_x d); (eo_xy e, qo_wxy q, dn_w d);
   (eo_xy e, cq_xy_cid (qo_left q), cd_cid (dn_left d)); (eo_xy e, cq_xy_cid (qo_right q), cd_cid (dn_right d));
   (ce_a (eo_left e), cq_a (qo_left q), dn_xz d); (ce_b (eo_left e), cq_b (qo_left q), dn_x d);
   (ce_a (eo_right e), cq_a (qo_right q), dn_xz d); (ce_b (eo_right e), cq_b (qo_right q), dn_x d);
   (eo_a e, ax, dn_xz d); (eo_b e, bx, dn_x d)]
  ++ map (fun id => (ce_rx (eo_left e) id, cq_rx (qo_left q) id, dn_xz d)) rxid_all
  ++ map (fun id => (ce_rx (eo_right e) id, cq_rx (qo_right q) id, dn_xz d)) rxid_all
  ++ map (fun id => (eo_xy e, qo_fixed q id, dn_internal d id)) icid_all.
(** compute_v.rs:352-375 [EvaluationSource] *)
Definition eval_source {T : Type} (q : queryout T) : source rxcomp T T :=
  let at_ (c : cquery T) (i : rxcomp) := match i with AbA => cq_a c | AbB => cq_b c | Rx id => cq_rx c id end in
  two_source (at_ (qo_left q)) (at_ (qo_right q)) (cq_xy_cid (qo_left q)) (cq_xy_cid (qo_right q)).

Section Rec.
  Variable F : Field.
  Variable W : Type.
  Variable one : W.
  Variable wit : bool.
  Variable cb : F.  (* the constant of the nested curve *)
  Local Notation G := (G F W).
  Local Notation elem := (elem F W).
  Local Notation point := (point F W).

  (** ** unified output *)
  (** unified.rs:106-113 [Output] *)
  Record uout := mk_uout { uo_pt : upt -> point; uo_el : uel -> elem }.
  (** unified.rs:316-322 [Slot]: the instance value and allocator are those of the field *)
  Record slot (T : Type) := mk_slot { sl_value : option T; sl_set : bool }.
  Arguments mk_slot {T}. Arguments sl_value {T}. Arguments sl_set {T}.
  (** unified.rs:162-167 [OutputBuilder] *)
  Record ubuilder := mk_ubuilder { ub_pt : upt -> slot point; ub_el : uel -> slot elem; ub_inst : option (uinst F) }.
  (** unified.rs:177-184, 326-337 [new] *)
  Definition ub_new (inst : option (uinst F)) : ubuilder :=
    mk_ubuilder (fun _ => mk_slot None false) (fun _ => mk_slot None false) inst.
  Definition set_pt (b : ubuilder) (f : upt) (s : slot point) : ubuilder :=
    mk_ubuilder (fun g => if upt_eqb f g then s else ub_pt b g) (ub_el b) (ub_inst b).
  Definition set_el (b : ubuilder) (f : uel) (s : slot elem) : ubuilder :=
    mk_ubuilder (ub_pt b) (fun g => if uel_eqb f g then s else ub_el b g) (ub_inst b).
  Definition alloc_pt (b : ubuilder) (f : upt) : G point := p_alloc F W one cb (lift1 (fun i => ui_pt i f) (ub_inst b)).
  Definition alloc_el (b : ubuilder) (f : uel) : G elem := e_alloc F W (lift1 (fun i => ui_el i f) (ub_inst b)).
  (** unified.rs:350-355 [read] *)
  Definition read_el (b : ubuilder) (f : uel) : G (elem * ubuilder) :=
    match sl_value (ub_el b f) with
    | Some _ => GErr
    | None => v <- alloc_el b f ;; GRet (v, set_el b f (mk_slot (Some v) (sl_set (ub_el b f))))
    end.
  (** unified.rs:369-373 [provide] *)
  Definition provide_el (b : ubuilder) (f : uel) (v : elem) : G ubuilder :=
    match sl_value (ub_el b f) with
    | Some _ => GErr
    | None => GRet (set_el b f (mk_slot (Some v) true))
    end.
  (** unified.rs:388-394 [receive] *)
  Definition receive_el (b : ubuilder) (f : uel) : G (elem * ubuilder) :=
    match sl_value (ub_el b f) with
    | Some _ => GErr
    | None => v <- alloc_el b f ;; GRet (v, set_el b f (mk_slot (Some v) true))
    end.
  Definition receive_pt (b : ubuilder) (f : upt) : G (point * ubuilder) :=
    match sl_value (ub_pt b f) with
    | Some _ => GErr
    | None => v <- alloc_pt b f ;; GRet (v, set_pt b f (mk_slot (Some v) true))
    end.
  (** point.rs:25-33 derived [Write]: x then y *)
  Definition pt_write (p : point) : list elem := [px _ _ p; py _ _ p].
  (** unified.rs:197-200, 400-406 [take] on every field in order; the wires of the
      output in [Write] order *)
  Fixpoint take_all (b : ubuilder) (fs : list ufield) : G (list elem) :=
    match fs with
    | [] => GRet []
    | FP f :: r => v <- match sl_value (ub_pt b f) with Some v => GRet v | None => alloc_pt b f end ;;
                   t <- take_all b r ;; GRet (pt_write v ++ t)
    | FE f :: r => v <- match sl_value (ub_el b f) with Some v => GRet v | None => alloc_el b f end ;;
                   t <- take_all b r ;; GRet (v :: t)
    end.
  Definition was_set (b : ubuilder) (f : ufield) : bool :=
    match f with FP p => sl_set (ub_pt b p) | FE e => sl_set (ub_el b e) end.
  (** unified.rs:201-208, 224-227 [cover] *)
  Fixpoint cover_all (b : ubuilder) (fs : list ufield) (c : coverage) : option coverage :=
    match fs with
    | [] => Some c
    | f :: r => if was_set b f
                then if c f then None else cover_all b r (fun g => if ufield_eqb f g then true else c g)
                else cover_all b r c
    end.
  (** unified.rs:193-210 [finish_no_suffix]: the written output and the coverage of
      the returned instance *)
  Definition finish_no_suffix (b : ubuilder) : G (list elem * option coverage) :=
    out <- take_all b uall ;;
    match ub_inst b with
    | None => GRet (out, None)
    | Some i => match cover_all b uall (ui_cov i) with None => GErr | Some c => GRet (out, Some c) end
    end.
  (** unified.rs:485-495 [finish]; suffix.rs:30-39: the suffix is written last *)
  Definition finish (b : ubuilder) : G (list elem * option coverage) :=
    zero <- e_zero F W one wit ;; r <- finish_no_suffix b ;; GRet (fst r ++ [zero], snd r).
  (** unified.rs:106-113 derived [Write] of an output *)
  Definition uout_write (u : uout) : list elem :=
    flat_map (fun f => match f with FP p => pt_write (uo_pt u p) | FE e => [uo_el u e] end) uall.

  (** ** stages *)
  (** preamble.rs: [ProofInputs] with its [ChildHeaders], [Output] *)
  Record pinputs := mk_pinputs { pi_left : list elem; pi_right : list elem; pi_out : list elem; pi_cid : elem; pi_uni : uout }.
  Record preamble := mk_preamble { pr_left : pinputs; pr_right : pinputs }.
  (** outer_error.rs [Output] *)
  Record outer_error := mk_outer_error { oe_errs : list elem; oe_collapsed : list elem; oe_left : child_ky elem;
    oe_right : child_ky elem; oe_sponge : list elem }.

  (** horner.rs:47-50 [finish_ky], writing a list first *)
  Fixpoint hz_writes (pt : elem) (acc : option elem) (vs : list elem) : G (option elem) :=
    match vs with [] => GRet acc | v :: r => acc' <- hz_write pt acc v ;; hz_writes pt acc' r end.
  Definition hz_finish_ky (pt : elem) (acc : option elem) : G elem :=
    acc' <- hz_write pt acc (e_one F W one wit) ;; hz_finish one wit acc'.
  (** preamble.rs [unified_ky_values] *)
  Definition unified_ky_values (i : pinputs) (y : elem) : G (elem * elem) :=
    ky <- hz_writes y None (uout_write (pi_uni i)) ;;
    z1 <- e_zero F W one wit ;; k1 <- hz_write y ky z1 ;; u <- hz_finish_ky y k1 ;;
    ky2 <- hz_writes y ky (pi_left i) ;; ky3 <- hz_writes y ky2 (pi_right i) ;;
    z2 <- e_zero F W one wit ;; k2 <- hz_write y ky3 z2 ;; br <- hz_finish_ky y k2 ;;
    GRet (u, br).
  (** preamble.rs [application_ky] *)
  Definition application_ky (i : pinputs) (y : elem) : G elem :=
    k1 <- hz_writes y None (pi_left i) ;; k2 <- hz_writes y k1 (pi_right i) ;; k3 <- hz_writes y k2 (pi_out i) ;;
    hz_finish_ky y k3.
  (** preamble.rs [is_trivial]; the index underflow for an empty header is [GErr] *)
  Definition is_trivial (i : pinputs) : G (bool_g W) :=
    match rev (pi_out i) with
    | [] => GErr
    | suffix :: _ => e_is_equal F W one suffix (e_one F W one wit)
    end.
  (** preamble.rs [is_base_case] *)
  Definition is_base_case (p : preamble) : G (bool_g W) :=
    l <- is_trivial (pr_left p) ;; r <- is_trivial (pr_right p) ;; b_and F W l r.
  (** point.rs:215-219 [enforce_consistent]; 88-95 [value] ([from_xy] of a point off the
      curve is the panic) *)
  Definition p_consistent (p : point) : G unit :=
    v <- try_just (lift2 pair (ev _ _ (px _ _ p)) (ev _ _ (py _ _ p)))
           (fun xy : F * F => if feqb (fmul (snd xy) (snd xy)) (fadd (fmul (fst xy) (fmul (fst xy) (fst xy))) cb)
                              then Some (Some xy) else None) ;;
    q <- p_alloc F W one cb v ;;
    g_equal F W (ew _ _ (px _ _ q)) (ew _ _ (px _ _ p)) ;;; g_equal F W (ew _ _ (py _ _ q)) (ew _ _ (py _ _ p)).
  (** the derived [Consistent]: nothing for elements, every point of the unified
      outputs (left then right) *)
  Fixpoint pts_consistent (u : uout) (fs : list ufield) : G unit :=
    match fs with
    | [] => GRet tt
    | FP f :: r => p_consistent (uo_pt u f) ;;; pts_consistent u r
    | FE _ :: r => pts_consistent u r
    end.
  Definition pre_consistent (p : preamble) : G unit :=
    pts_consistent (pi_uni (pr_left p)) uall ;;; pts_consistent (pi_uni (pr_right p)) uall.
  (** [enforce_equal] on elements and on vectors of elements (gadgets.rs:132-139) *)
  Definition e_equal (a b : elem) : G unit := g_equal F W (ew _ _ a) (ew _ _ b).
  Fixpoint es_equal (a b : list elem) : G unit :=
    match a, b with
    | x :: r, y :: s => e_equal x y ;;; es_equal r s
    | [], [] => GRet tt
    | _, _ => GErr
    end.

  (** ** hashes_1 and hashes_2 *)
  Section Hashes.
    Variable P : pparams F.
    Variable of_u : N -> F.
    Variable tag : list N.  (* RAGU_TAG *)
    Local Notation perm := (permutation F W one wit P).
    Local Notation sponge := (sponge F W).
    (** writing a point into the transcript *)
    Definition tr_write (m : sponge) (p : point) : G sponge :=
      m1 <- sp_absorb F W P perm m (px _ _ p) ;; sp_absorb F W P perm m1 (py _ _ p).
    (** [transcript.challenge(dr)?] *)
    Definition tr_chal (m : sponge) : G (elem * sponge) :=
      r <- tr_challenge F W P perm m ;; match r with inl _ => GErr | inr vm => GRet vm end.
    (** hashes_1.rs:203-302 [witness] *)
    Definition hashes_1 (log2_circuits : nat) (pre : preamble) (oe : outer_error) (inst : option (uinst F))
      : G (list elem * option coverage) :=
      e_root_of_unity F W one wit (pi_cid (pr_left pre)) log2_circuits ;;;
      e_root_of_unity F W one wit (pi_cid (pr_right pre)) log2_circuits ;;;
      let b := ub_new inst in
      t <- tr_new F W one wit P perm of_u tag ;;
      r <- receive_pt b PPreamble ;; let '(c1, b) := r in
      t <- tr_write t c1 ;;
      r <- tr_chal t ;; let '(w, t) := r in
      b <- provide_el b Uw w ;;
      r <- receive_pt b PSPrime ;; let '(c2, b) := r in
      t <- tr_write t c2 ;;
      r <- tr_chal t ;; let '(y, t) := r in
      r <- tr_chal t ;; let '(z, t) := r in
      b <- provide_el b Uy y ;;
      b <- provide_el b Uz z ;;
      lak <- application_ky (pr_left pre) y ;;
      rak <- application_ky (pr_right pre) y ;;
      e_equal lak (ck_application (oe_left oe)) ;;; e_equal rak (ck_application (oe_right oe)) ;;;
      luk <- unified_ky_values (pr_left pre) y ;;
      ruk <- unified_ky_values (pr_right pre) y ;;
      e_equal (fst luk) (ck_unified (oe_left oe)) ;;; e_equal (fst ruk) (ck_unified (oe_right oe)) ;;;
      e_equal (snd luk) (ck_bridge (oe_left oe)) ;;; e_equal (snd ruk) (ck_bridge (oe_right oe)) ;;;
      r <- receive_pt b PInnerError ;; let '(c3, b) := r in
      t <- tr_write t c3 ;;
      s <- sp_save F W P perm t ;;
      match s with
      | inl _ => GErr
      | inr state =>
          es_equal state (oe_sponge oe) ;;;
          u <- finish_no_suffix b ;;
          zero <- e_zero F W one wit ;;
          GRet (fst u ++ pi_out (pr_left pre) ++ pi_out (pr_right pre) ++ [zero], snd u)
      end.
    (** hashes_2.rs:149-228 [witness] *)
    Definition hashes_2 (oe : outer_error) (inst : option (uinst F)) : G (list elem * option coverage) :=
      let b := ub_new inst in
      let t := tr_resume F W P (oe_sponge oe) in
      r <- rs_challenge F W P perm t ;;
      match r with
      | inl _ => GErr
      | inr (mu, t) =>
          b <- provide_el b Umu mu ;;
          r <- rs_challenge F W P perm t ;;
          match r with
          | inl _ => GErr
          | inr (nu, t) =>
              b <- provide_el b Unu nu ;;
              t <- rs_into F W t ;;
              r <- receive_pt b POuterError ;; let '(c, b) := r in
              t <- tr_write t c ;;
              r <- tr_chal t ;; let '(mu', t) := r in
              r <- tr_chal t ;; let '(nu', t) := r in
              b <- provide_el b Umu' mu' ;;
              b <- provide_el b Unu' nu' ;;
              r <- receive_pt b PAB ;; let '(c, b) := r in
              t <- tr_write t c ;;
              r <- tr_chal t ;; let '(x, t) := r in
              b <- provide_el b Ux x ;;
              r <- receive_pt b PQuery ;; let '(c, b) := r in
              t <- tr_write t c ;;
              r <- tr_chal t ;; let '(alpha, t) := r in
              b <- provide_el b Ualpha alpha ;;
              r <- receive_pt b PF ;; let '(c, b) := r in
              t <- tr_write t c ;;
              r <- tr_chal t ;; let '(u, t) := r in
              b <- provide_el b Uu u ;;
              r <- receive_pt b PEval ;; let '(c, b) := r in
              t <- tr_write t c ;;
              r <- tr_chal t ;; let '(pre_beta, t) := r in
              b <- provide_el b Upre_beta pre_beta ;;
              finish b
          end
      end.
  End Hashes.

  (** ** inner_collapse and outer_collapse; M = GroupSize, N = NumGroups *)
  (** inner_collapse.rs:181-187; [fixed] values of the ky iterator per group *)
  Fixpoint collapse_groups (M : nat) (cf : cfolder F W) (ky : nat -> elem) (i : nat) (errs : list (list elem))
           (collapsed : list elem) : G unit :=
    match errs with
    | [] => GRet tt
    | e :: r =>
        v <- fold_products one wit M cf e (map ky (seq (i * M) M)) ;;
        match nth_error collapsed i with
        | None => GErr
        | Some c => e_equal v c ;;; collapse_groups M cf ky (S i) r collapsed
        end
    end.
  (** inner_collapse.rs:136-191 [witness] ([outer_error] and [inner_error] hold only
      elements, so enforcing them adds nothing) *)
  Definition inner_collapse (M : nat) (pre : preamble) (oe : outer_error) (ie : list (list elem)) (inst : option (uinst F))
    : G (list elem * option coverage) :=
    let b := ub_new inst in
    r <- read_el b Umu ;; let '(mu, b) := r in
    r <- read_el b Unu ;; let '(nu, b) := r in
    cf <- cf_new one mu nu ;;
    zero <- e_zero F W one wit ;;
    let ky := ky_values (two_ky zero (uo_el (pi_uni (pr_left pre)) Uc) (uo_el (pi_uni (pr_right pre)) Uc)
                                (oe_left oe) (oe_right oe)) in
    collapse_groups M cf ky 0 ie (oe_collapsed oe) ;;;
    finish b.
  (** outer_collapse.rs:135-185 [witness] *)
  Definition outer_collapse (N : nat) (pre : preamble) (oe : outer_error) (inst : option (uinst F))
    : G (list elem * option coverage) :=
    let b := ub_new inst in
    r <- read_el b Umu' ;; let '(mu', b) := r in
    r <- read_el b Unu' ;; let '(nu', b) := r in
    cf <- cf_new one mu' nu' ;;
    computed_c <- fold_products one wit N cf (oe_errs oe) (oe_collapsed oe) ;;
    r <- receive_el b Uc ;; let '(witnessed_c, b) := r in
    base <- is_base_case pre ;;
    nb <- b_not F W one base ;;
    b_cond_equal F W nb witnessed_c computed_c ;;;
    finish b.

  (** ** compute_v *)
  Section ComputeV.
    Variables (k M N nbits : nat) (gen : F) (fsqrt : F -> option F) (zeta : F) (omega : icid -> F).
    (** drivers.rs:339-346 [routine] on txz.rs: the auxiliary inverses of [predict], then [execute] *)
    Definition txz_routine (x z : elem) : G elem :=
      aux <- try_just (lift2 pair (ev _ _ x) (ev _ _ z)) (fun p : F * F =>
               match inv_opt F (fst p), inv_opt F (snd p) with Some a, Some b => Some (a, b) | _, _ => None end) ;;
      g_txz_execute F W one k x z aux.
    (** compute_v.rs:651-656 [Inverter::add]: the index and the differences so far *)
    Definition inv_add (base : elem) (diffs : list elem) (v : elem) : G (nat * list elem) :=
      d <- e_sub F W base v ;; GRet (length diffs, diffs ++ [d]).
    (** compute_v.rs:668-680 [add_constant], [add_circuit] for every internal circuit *)
    Fixpoint inv_add_circuits (base : elem) (diffs : list elem) (ids : list icid) : G (list (icid * nat) * list elem) :=
      match ids with
      | [] => GRet ([], diffs)
      | id :: r =>
          c <- e_constant F W one wit (omega id) ;;
          a <- inv_add base diffs c ;;
          t <- inv_add_circuits base (snd a) r ;;
          GRet ((id, fst a) :: fst t, snd t)
      end.
    (** compute_v.rs:693-711 [invert]; [ff::BatchInverter] leaves zeros in place *)
    Fixpoint inv_all (diffs : list elem) : G (list elem) :=
      match diffs with
      | [] => GRet []
      | d :: r =>
          i <- e_invert_with F W one d (lift1 (fun v => if feqb v f0 then f0 else finv v) (ev _ _ d)) ;;
          t <- inv_all r ;; GRet (i :: t)
      end.
    (** indexing the inverted vector; out of bounds is [GErr] *)
    Definition at_ix {T : Type} (l : list T) (i : nat) : G T := match nth_error l i with Some v => GRet v | None => GErr end.
    Fixpoint at_ids (inverted : list elem) (ixs : list (icid * nat)) : G (list (icid * elem)) :=
      match ixs with
      | [] => GRet []
      | (id, i) :: r => v <- at_ix inverted i ;; t <- at_ids inverted r ;; GRet ((id, v) :: t)
      end.
    Definition id_get (d : elem) (l : list (icid * elem)) (id : icid) : elem :=
      match find (fun p => icid_eqb id (fst p)) l with Some p => snd p | None => d end.
    (** compute_v.rs:280-337 [Denominators::new] *)
    Definition denominators (u w x y z : elem) (pre : preamble) : G (denoms elem) :=
      xz <- e_mul F W x z ;;
      let l := pr_left pre in let r := pr_right pre in
      a1 <- inv_add u [] (uo_el (pi_uni l) Uu) ;;
      a2 <- inv_add u (snd a1) (uo_el (pi_uni l) Uy) ;;
      a3 <- inv_add u (snd a2) (uo_el (pi_uni l) Ux) ;;
      a4 <- inv_add u (snd a3) (pi_cid l) ;;
      a5 <- inv_add u (snd a4) (uo_el (pi_uni r) Uu) ;;
      a6 <- inv_add u (snd a5) (uo_el (pi_uni r) Uy) ;;
      a7 <- inv_add u (snd a6) (uo_el (pi_uni r) Ux) ;;
      a8 <- inv_add u (snd a7) (pi_cid r) ;;
      a9 <- inv_add u (snd a8) w ;;
      a10 <- inv_add u (snd a9) x ;;
      a11 <- inv_add u (snd a10) y ;;
      a12 <- inv_add u (snd a11) xz ;;
      cs <- inv_add_circuits u (snd a12) icid_all ;;
      inv <- inv_all (snd cs) ;;
      lu <- at_ix inv (fst a1) ;; ly <- at_ix inv (fst a2) ;; lx <- at_ix inv (fst a3) ;; lc <- at_ix inv (fst a4) ;;
      ru <- at_ix inv (fst a5) ;; ry <- at_ix inv (fst a6) ;; rx <- at_ix inv (fst a7) ;; rc <- at_ix inv (fst a8) ;;
      dw <- at_ix inv (fst a9) ;; dx <- at_ix inv (fst a10) ;; dy <- at_ix inv (fst a11) ;; dxz <- at_ix inv (fst a12) ;;
      ids <- at_ids inv (fst cs) ;;
      GRet (mk_denoms (mk_cdenoms lu ly lx lc) (mk_cdenoms ru ry rx rc) dw dx dy dxz (id_get lu ids)).
    (** compute_v.rs:209-220: the loop over [poly_queries] *)
    Fixpoint fu_loop (alpha : elem) (acc : option elem) (qs : list (elem * elem * elem)) : G (option elem) :=
      match qs with
      | [] => GRet acc
      | (pu, v, d) :: r =>
          s <- e_sub F W pu v ;; m <- e_mul F W s d ;; acc' <- hz_write alpha acc m ;; fu_loop alpha acc' r
      end.
    (** compute_v.rs:140-243 [witness] *)
    Definition compute_v (pre : preamble) (query : queryout elem) (eval : evalout elem) (inst : option (uinst F))
      : G (list elem * option coverage) :=
      pre_consistent pre ;;;
      let b := ub_new inst in
      r <- read_el b Uw ;; let '(w, b) := r in
      r <- read_el b Uy ;; let '(y, b) := r in
      r <- read_el b Uz ;; let '(z, b) := r in
      r <- read_el b Ux ;; let '(x, b) := r in
      txz <- txz_routine x z ;;
      r <- read_el b Umu ;; let '(mu, b) := r in
      r <- read_el b Unu ;; let '(nu, b) := r in
      r <- read_el b Umu' ;; let '(mu', b) := r in
      r <- read_el b Unu' ;; let '(nu', b) := r in
      mu_inv <- e_invert F W one mu ;;
      mu'_inv <- e_invert F W one mu' ;;
      munu <- e_mul F W mu nu ;;
      mu'nu' <- e_mul F W mu' nu' ;;
      ab <- compute_axbx one wit z txz (qo_fixed query) M N (eval_source query) mu_inv mu'_inv munu mu'nu' ;;
      r <- read_el b Ualpha ;; let '(alpha, b) := r in
      r <- read_el b Uu ;; let '(u, b) := r in
      d <- denominators u w x y z pre ;;
      h <- fu_loop alpha None (poly_queries eval query (uo_el (pi_uni (pr_left pre)) Uv) (uo_el (pi_uni (pr_right pre)) Uv)
                                            d (fst ab) (snd ab)) ;;
      fu <- hz_finish one wit h ;;
      r <- read_el b Upre_beta ;; let '(pre_beta, b) := r in
      beta_endo <- en_extract F W one nbits gen fsqrt wit pre_beta ;;
      beta <- en_lift F W one zeta wit beta_endo ;;
      h <- hz_writes beta None (fu :: eval_write eval) ;;
      v <- hz_finish one wit h ;;
      b <- provide_el b Uv v ;;
      finish b.
  End ComputeV.
End Rec.
Arguments mk_slot {T}. Arguments sl_value {T}. Arguments sl_set {T}.
Arguments mk_ubuilder {F W}. Arguments ub_pt {F W}. Arguments ub_el {F W}. Arguments ub_inst {F W}. Arguments ub_new {F W}.
Arguments set_pt {F W}. Arguments set_el {F W}. Arguments was_set {F W}. Arguments cover_all {F W}.
