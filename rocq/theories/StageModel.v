(** Model of crates/ragu_circuits/src/staging/: stages, stage masks, the stage
    builder, bonding circuits.

    Simplifications.  A stage type is given by its [values()] and the [values()]
    of its chain of parents, nearest first; the gadget a stage returns by its
    number of wires.  [Err] and panics are both [None].  usize arithmetic does
    not overflow.  [n] is R::n(), and R::num_coeffs() is 4n. *)
From Coq Require Import List Arith NArith Bool.
From Verif Require Import FieldDef ArithModel FFTModel SparseModel CircModel SyModel RegModel.
Import ListNotations.

(** staging/mod.rs:339-342 [num_gates]: values().div_ceil(2) *)
Definition stage_gates (values : nat) : nat := values / 2 + (if Nat.eqb (values mod 2) 0 then 0 else 1).
(** staging/mod.rs:170-172 and 195-197 [skip_gates] *)
Fixpoint skip_gates (parents : list nat) : nat :=
  match parents with
  | [] => 1
  | v :: ps => skip_gates ps + stage_gates v
  end.

(** ** masks (staging/mask.rs) *)
(** mask.rs:26-36 [StageMask::new]; the pair is (skip_gates, num_gates) *)
Definition mask_new (n skip num : nat) : option (nat * nat) :=
  if Nat.eqb skip 0 then None
  else if n <? skip + num then None
  else Some (skip, num).
(** mask.rs:43-56 [new_final] *)
Definition mask_new_final (n skip : nat) : option (nat * nat) :=
  if Nat.eqb skip 0 then None
  else if n <? skip then None
  else Some (skip, n - skip).

Section Mask.
  Variable F : Field.
  (** mask.rs:70-87: one of the four fill loops; the running power continues
      from one loop to the next *)
  Fixpoint powers (p cur : F) (m : nat) : list F * F :=
    match m with
    | O => ([], cur)
    | S m' => let (l, cur') := powers p (fmul cur p) m' in (cur :: l, cur')
    end.
  (** mask.rs:95-102, the loop that clears the active gates, on one vector *)
  Fixpoint clear_range (v : list F) (j m : nat) : list F :=
    match m with
    | O => v
    | S m' => clear_range (upd v j f0) (S j) m'
    end.
  (** mask.rs:62-105 [project] *)
  Definition mask_project (n : nat) (m : nat * nat) (p : F) : option (poly F) :=
    let (d, c1) := powers p f1 n in
    let (ra, c2) := powers p c1 n in
    let (b, c3) := powers p c2 n in
    let (rc, _) := powers p c3 n in
    let clear v := clear_range (upd v 0 f0) (fst m) (snd m) in
    wiring_build (4 * n) n (clear (rev ra)) (clear b) (clear (rev rc)) (clear d).
  (** mask.rs:109-142 [sxy] *)
  Definition mask_global (xy xy_2n xy_inv : F) (n : nat) : F :=
    fsub (geosum xy (N.of_nat (n * 4))) (fmul (fadd xy_2n f1) (fadd (fmul xy_2n xy_inv) f1)).
  Definition mask_notch (xy xy_2n xy_inv : F) (g m : nat) : F :=
    let gsum := geosum xy (N.of_nat m) in
    let xy_g := fpow xy g in
    let xy_h := fmul xy_2n (fpow xy_inv (g + m)) in
    fmul (fmul (fadd f1 xy_2n) (fadd xy_g xy_h)) gsum.
  Definition mask_sxy (n : nat) (m : nat * nat) (x y : F) : F :=
    if feqb x f0 || feqb y f0 then f0
    else
      let xy := fmul x y in
      let xy_2n := fpow xy (2 * n) in
      let xy_inv := finv xy in
      fsub (mask_global xy xy_2n xy_inv n) (mask_notch xy xy_2n xy_inv (fst m) (snd m)).
  (** mask.rs:108-172, as a circuit object: [sx] and [sy] both project, no
      segment records *)
  Definition mask_cobj (n : nat) (m : nat * nat) : cobj F :=
    mk_cobj F (fun x y _ => Some (mask_sxy n m x y)) (fun x _ => mask_project n m x) (fun y _ => mask_project n m y) [].

  (** ** stage polynomials (staging/mod.rs) *)
  (** mod.rs:397-405: b and d of the active gates *)
  Fixpoint stage_pairs (g : nat) (values : list F) : list F * list F :=
    match g with
    | O => ([], [])
    | S g' =>
        let b := hd f0 values in let v1 := tl values in
        let d := hd f0 v1 in let v2 := tl v1 in
        let (bs, ds) := stage_pairs g' v2 in (b :: bs, d :: ds)
    end.
  (** mod.rs:354-408 [rx_configured]; [out] is the list of wire values of the
      gadget that the stage's witness returns *)
  Definition stage_rx (n : nat) (parents : list nat) (values : nat) (alpha : F) (out : list F) : option (poly F) :=
    if values <? length out then None
    else
      let skip := skip_gates parents in let num := stage_gates values in
      let (bs, ds) := stage_pairs num out in
      let zeros := f0 :: repeat f0 (skip - 1) ++ repeat f0 num in
      trace_build (4 * n) n zeros (f0 :: repeat f0 (skip - 1) ++ bs) zeros (alpha :: repeat f0 (skip - 1) ++ ds).
  (** mod.rs:429-452 [mask], [final_mask] *)
  Definition stage_mask (n : nat) (parents : list nat) (values : nat) : option (nat * nat) :=
    mask_new n (skip_gates parents) (stage_gates values).
  Definition stage_final_mask (n : nat) (parents : list nat) (values : nat) : option (nat * nat) :=
    mask_new_final n (skip_gates parents + stage_gates values).
  (** mod.rs:459-468 [generator_index_for_b] *)
  Definition generator_index_for_b (n : nat) (parents : list nat) (values i : nat) : option nat :=
    if i <? stage_gates values then Some (2 * n - 1 - skip_gates parents - i) else None.

  (** ** the stage builder (staging/builder.rs) *)
  (** builder.rs:205-209, the padding loop: the number of extra allocations; the
      counter grows by one each round, so 2 * gates rounds suffice *)
  Fixpoint pad_loop (fuel num_wires gates : nat) : nat :=
    match fuel with
    | O => 0
    | S f => if num_wires / 2 <? gates then S (pad_loop f (S num_wires) gates) else 0
    end.
  Definition allocs (vs : list F) (k : prog F) : prog F := fold_right PAlloc k vs.
  (** builder.rs:180-222 [configure_stage] for a stage whose gadget has
      [num_wires] wires, called when the driver's environment has [envlen] wires:
      the guard's wires and the number of allocations (all of Coeff::Zero) *)
  Definition configure_stage (envlen values num_wires : nat) : option (list wref * nat) :=
    if values <? num_wires then None
    else Some (map WVar (seq envlen num_wires),
               num_wires + pad_loop (2 * stage_gates values) num_wires (stage_gates values)).
  (** a chain of [add_stage] calls, base first: each stage's guard wires and the
      program that runs before [k] *)
  Fixpoint add_stages (envlen : nat) (stages : list (nat * nat)) (k : prog F) : option (list (list wref) * prog F) :=
    match stages with
    | [] => Some ([], k)
    | (values, num_wires) :: rest =>
        obind (configure_stage envlen values num_wires) (fun wm =>
        obind (add_stages (envlen + snd wm) rest k) (fun gp =>
        Some (fst wm :: fst gp, allocs (repeat f0 (snd wm)) (snd gp))))
    end.
  (** builder.rs:86-101 and 142-155: [StageWireInjector] on a gadget of m wires *)
  Fixpoint inject (m : nat) (wires : list wref) : option (list wref) :=
    match m with
    | O => Some []
    | S m' => match wires with
              | [] => None
              | w :: ws => obind (inject m' ws) (fun r => Some (w :: r))
              end
    end.

  (** ** bonding circuits (staging/bonding.rs) *)
  (** bonding.rs:82-102: a wire is [true] when it is ONE; [RejectOne] *)
  Definition is_one (env : list bool) (r : wref) : bool := lookup true env r.
  Definition lc_one (env : list bool) (lc : list (lcall F wref)) : bool :=
    existsb (fun op => match op with
                       | LTerm w _ | LAdd w | LSub w => is_one env w
                       | LGain _ => false
                       | LExtend ts => existsb (fun t => is_one env (fst t)) ts
                       end) lc.
  (** bonding.rs:114-181 [BondingValidator]: environment and whether an error has
      been recorded.  [Driver::routine] has its default body (ragu_core
      drivers.rs): it runs the routine in place. *)
  Fixpoint bv_run (p : prog F) (env : list bool) (err : bool) : list bool * bool :=
    match p with
    | PEnd => (env, err)
    | PGate _ _ _ _ k => bv_run k (env ++ [false; false; false; false]) true
    | PMul _ _ _ k => bv_run k (env ++ [false; false; false]) true
    | PAlloc _ k => bv_run k (env ++ [false]) err
    | PAdd lc k => bv_run k (env ++ [false]) (err || lc_one env lc)
    | PEnforce lc k => bv_run k env (err || lc_one env lc)
    | PClone w k => bv_run k (env ++ [is_one env w]) err
    | PDrop _ k => bv_run k env err
    | PRoutine _ ins body outs k =>
        let (cenv, err') := bv_run body (map (is_one env) ins) err in
        bv_run k (env ++ map (is_one cenv) outs) err'
    end.
  (** bonding.rs:62-79: the validation in [into_bonding_object]; the circuit sees
      no SYSTEM wires, so its environment starts with four entries it never
      mentions *)
  Definition bv_accepts (body : prog F) : bool := negb (snd (bv_run body [false; false; false; false] false)).

  (** bonding.rs:183-231 [Stripped] around an object, at rank n = 2^lg *)
  Definition stripped (lg : nat) (o : cobj F) : cobj F :=
    let n := rk_n lg in let nc := rk_nc lg in
    mk_cobj F
      (fun x y plan => obind (ob_sxy F o x y plan) (fun v => Some (fsub v (fpow x (2 * n)))))
      (fun x plan => obind (ob_sx F o x plan) (fun p =>
         match snd (ci_next p (iter_coeffs nc p)) with
         | None => None
         | Some c0 => obind (from_coeffs nc [c0]) (fun correction => p_sub nc p correction)
         end))
      (fun y plan => obind (ob_sy F o y plan) (fun p =>
         obind (wiring_build nc n [] [f1] [] []) (fun correction => p_sub nc p correction)))
      (ob_segs F o).
  (** bonding.rs:62-79 [into_bonding_object]: [body] is the witness method, [wr]
      the driver calls of [output.write], which the validator does not run *)
  Definition bonding_object (x0 x1 x2 x3 yc onec hc : F) (lg : nat) (body wr : prog F) (outs : list wref) : option (cobj F) :=
    if bv_accepts body then obind (prog_cobj x0 x1 x2 x3 yc onec hc lg (prog_app body wr) outs) (fun o => Some (stripped lg o))
    else None.
End Mask.
Arguments powers {F}. Arguments clear_range {F}. Arguments mask_project {F}. Arguments mask_sxy {F}.
Arguments stage_pairs {F}. Arguments stage_rx {F}. Arguments allocs {F}. Arguments add_stages {F}.
Arguments bv_run {F}. Arguments bv_accepts {F}. Arguments lc_one {F}. Arguments stripped {F}. Arguments bonding_object {F}.
