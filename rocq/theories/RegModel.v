(** Model of crates/ragu_circuits/src/registry.rs: circuit indices, the registry
    builder, the registry and its restrictions.

    Simplifications.  [dyn CircuitObject] is a record of its functions [sxy],
    [sx], [sy], [segment_records] (lib.rs:189-211), each of which may panic
    ([None]).  The BTreeMap of omega keys is an association list whose newest
    entry wins.  BLAKE2b ([hash], with its personalisation), [F::to_repr] and
    [F::from_uniform_bytes] are parameters; [repr] is the canonical integer of a
    field element, of which [low_u64] takes the low 64 bits.  The rank is given
    by log2 of n, so that num_coeffs = 4n as in polynomials/mod.rs:29-37. *)
From Coq Require Import List Arith NArith Bool.
From Verif Require Import FieldDef ModDef FFTModel SparseModel CircModel SyModel.
Import ListNotations.

Definition obind {A B} (x : option A) (f : A -> option B) : option B :=
  match x with Some a => f a | None => None end.

(** registry.rs:56-59 [omega_j] *)
Definition omega_j {F : Field} (T : TwoAdic F) (i : N) : F :=
  fpow (ta_root T) (N.to_nat (bitreverse i (N.of_nat (ta_S T)))).

Section Reg.
  Variable F : Field.
  Variable T : TwoAdic F.
  Variable threads : nat.
  Variable lg : nat.
  Definition rk_n : nat := 2 ^ lg.
  Definition rk_nc : nat := 4 * rk_n.

  (** lib.rs:189-211 [CircuitObject] *)
  Record cobj := mk_cobj {
    ob_sxy : F -> F -> list cseg -> option F;
    ob_sx : F -> list cseg -> option (poly F);
    ob_sy : F -> list cseg -> option (poly F);
    ob_segs : list (nat * nat)
  }.

  (** registry.rs:80-85 [RegistryBuilder] *)
  Record builder := mk_builder {
    rb_internal : list cobj; rb_bonding : list cobj; rb_steps : list cobj; rb_app : list cobj }.
  Definition rb_new : builder := mk_builder [] [] [] [].
  (** registry.rs:106-113 [num_internal_circuits], [num_circuits] *)
  Definition num_internal_circuits (b : builder) : nat := length (rb_bonding b) + length (rb_internal b).
  Definition num_circuits (b : builder) : nat :=
    num_internal_circuits b + length (rb_steps b) + length (rb_app b).
  (** registry.rs:116-118 [log2_circuits]: next_power_of_two is 1 for 0 *)
  Definition log2_circuits (b : builder) : nat := Nat.log2_up (num_circuits b).
  (** registry.rs:121-157: the four registration methods (the conversion of a
      circuit to an object is [circuit_object]) *)
  Definition register_circuit (o : cobj) (b : builder) : builder :=
    mk_builder (rb_internal b) (rb_bonding b) (rb_steps b) (rb_app b ++ [o]).
  Definition register_internal_circuit (o : cobj) (b : builder) : builder :=
    mk_builder (rb_internal b ++ [o]) (rb_bonding b) (rb_steps b) (rb_app b).
  Definition register_internal_step (o : cobj) (b : builder) : builder :=
    mk_builder (rb_internal b) (rb_bonding b) (rb_steps b ++ [o]) (rb_app b).
  Definition register_bonding (o : cobj) (b : builder) : builder :=
    mk_builder (rb_internal b) (rb_bonding b ++ [o]) (rb_steps b) (rb_app b).

  Variable repr : F -> N.
  (** registry.rs:344-353 [OmegaKey::from] *)
  Definition omega_key (f : F) : N :=
    let d := fadd f f in (repr (fadd (fadd d d) f) mod 2 ^ 64)%N.

  (** registry.rs:300-315 [Registry] *)
  Record registry := mk_registry {
    rg_domain : Domain F; rg_circuits : list cobj; rg_plans : list (list cseg);
    rg_lookup : list (N * nat); rg_key : F }.

  (** BTreeMap::get on the association list *)
  Fixpoint lookup_key (m : list (N * nat)) (k : N) : option nat :=
    match m with
    | [] => None
    | (k', i) :: m' => if N.eqb k' k then Some i else lookup_key m' k
    end.

  (** registry.rs:317-325 [LagrangeCache] *)
  Inductive lcache := LInterpolate (coeffs : list F) | LDirect (i : nat) | LEmpty.

  (** registry.rs:402-408 [key_sxy] *)
  Definition key_sxy (r : registry) (x y : F) : F :=
    if feqb x f0 || feqb y f0 then f0
    else fmul (rg_key r) (fpow (fmul x y) (rk_nc - 1)).

  (** registry.rs:411-430 [xy]; writing outside the vector, slicing past its end
      and the assertions of the parts are the panics *)
  Fixpoint xy_fill (d : Domain F) (x y : F) (i : nat) (cs : list cobj) (plans : list (list cseg)) (coeffs : list F)
    : option (list F) :=
    match cs with
    | [] => Some coeffs
    | c :: cs' =>
        match plans with
        | [] => None
        | p :: plans' =>
            let j := bitrev i (d_log2_n d) in
            obind (ob_sxy c x y p) (fun v =>
            if j <? length coeffs then xy_fill d x y (S i) cs' plans' (upd coeffs j v) else None)
        end
    end.
  Definition reg_xy (r : registry) (x y : F) : option (poly F) :=
    let key_scalar := key_sxy r x y in
    let d := rg_domain r in
    obind (xy_fill d x y 0 (rg_circuits r) (rg_plans r) (repeat f0 rk_nc)) (fun coeffs =>
    if d_n d <=? rk_nc then
      obind (d_ifft threads d (firstn (d_n d) coeffs)) (fun h =>
      match h ++ skipn (d_n d) coeffs with
      | [] => None
      | c0 :: cs => from_coeffs rk_nc (fadd c0 key_scalar :: cs)
      end)
    else None).

  (** registry.rs:471-506 [w_cached] *)
  Section WCached.
    Variable A : Type.
    Variable add_poly : cobj -> list cseg -> F -> A -> option A.
    Definition add_nth (r : registry) (i : nat) (coeff : F) (acc : A) : option A :=
      match nth_error (rg_circuits r) i with
      | Some c => match nth_error (rg_plans r) i with
                  | Some p => add_poly c p coeff acc
                  | None => None
                  end
      | None => Some acc
      end.
    Fixpoint interp_go (r : registry) (j : nat) (coeffs : list F) (acc : A) : option A :=
      match coeffs with
      | [] => Some acc
      | c :: coeffs' =>
          obind (add_nth r (bitrev j (d_log2_n (rg_domain r))) c acc) (interp_go r (S j) coeffs')
      end.
    Definition w_cached (r : registry) (cache : lcache) (init : A) : option A :=
      match cache with
      | LInterpolate coeffs => interp_go r 0 coeffs init
      | LDirect i => add_nth r i f1 init
      | LEmpty => Some init
      end.
  End WCached.

  (** registry.rs:512-528 [at] *)
  Definition reg_at (r : registry) (w : F) : option lcache :=
    match ell (rg_domain r) w (d_n (rg_domain r)) with
    | None => None
    | Some (Some coeffs) => Some (LInterpolate coeffs)
    | Some None => match lookup_key (rg_lookup r) (omega_key w) with
                   | Some i => Some (LDirect i)
                   | None => Some LEmpty
                   end
    end.

  (** registry.rs:533-556 [RegistryAt::y] *)
  Definition at_y (r : registry) (cache : lcache) (y : F) : option (poly F) :=
    obind (w_cached (poly F) (fun c p coeff acc =>
             obind (ob_sy c y p) (fun tmp => p_add rk_nc acc (p_scale coeff tmp))) r cache p_new) (fun q =>
    if feqb y f0 then Some q
    else obind (wiring_build rk_nc rk_n [] [] [fmul (rg_key r) (fpow y (rk_nc - 1))] []) (fun kv => p_add rk_nc q kv)).
  (** registry.rs:559-583 [RegistryAt::x] *)
  Definition at_x (r : registry) (cache : lcache) (x : F) : option (poly F) :=
    obind (w_cached (poly F) (fun c p coeff acc =>
             obind (ob_sx c x p) (fun tmp => p_add rk_nc acc (p_scale coeff tmp))) r cache p_new) (fun q =>
    if feqb x f0 then Some q
    else obind (from_coeffs rk_nc (repeat f0 (rk_nc - 1) ++ [fmul (rg_key r) (fpow x (rk_nc - 1))])) (fun kv => p_add rk_nc q kv)).
  (** registry.rs:586-597 [RegistryAt::xy] *)
  Definition at_xy (r : registry) (cache : lcache) (x y : F) : option F :=
    obind (w_cached F (fun c p coeff acc =>
             obind (ob_sxy c x y p) (fun v => Some (fadd acc (fmul v coeff)))) r cache f0) (fun res =>
    Some (fadd res (key_sxy r x y))).

  (** registry.rs:455-467 [wy], [wx], [wxy] *)
  Definition reg_wy r w y := obind (reg_at r w) (fun c => at_y r c y).
  Definition reg_wx r w x := obind (reg_at r w) (fun c => at_x r c x).
  Definition reg_wxy r w x y := obind (reg_at r w) (fun c => at_xy r c x y).
  (** registry.rs:437-452 [circuit_y], [circuit_xy], [circuit_in_domain] *)
  Definition circuit_y r (i : N) y := reg_wy r (omega_j T i) y.
  Definition circuit_xy r (i : N) x y := reg_wxy r (omega_j T i) x y.
  Definition circuit_in_domain (r : registry) (i : N) : bool := d_contains (rg_domain r) (omega_j T i).

  (** registry.rs:600-648 [compute_registry_digest] *)
  Variable hash : list N -> list N.
  Variable to_bytes : F -> list N.
  Variable from_uniform : list N -> F.
  Variable f_of_u64 : N -> F.
  Definition field_from_hash (digest_state : list N) (index : N) : F := from_uniform (hash (digest_state ++ [index])).
  Fixpoint digest_go (r : registry) (fuel : nat) (hasher : list N) (w x y : F) : option F :=
    match fuel with
    | O => Some (field_from_hash (hash hasher) 0)
    | S f =>
        obind (reg_wxy r w x y) (fun e =>
        let ds := hash (hasher ++ to_bytes e) in
        digest_go r f ds (field_from_hash ds 0) (field_from_hash ds 1) (field_from_hash ds 2))
    end.
  Definition compute_registry_digest (r : registry) : option F :=
    digest_go r 6 [] (f_of_u64 2) (f_of_u64 3) (f_of_u64 5).

  (** registry.rs:171-229 [finalize]: bound, domain, concatenation, floor plans,
      lookup table, key computed on the registry with the provisional key ONE *)
  Fixpoint lookup_go (d : Domain F) (l2 : nat) (i n : nat) (m : list (N * nat)) : list (N * nat) :=
    match n with
    | O => m
    | S n' => lookup_go d l2 (S i) n' ((omega_key (fpow (d_omega d) (bitrev i l2)), i) :: m)
    end.
  Definition finalize (b : builder) : option registry :=
    if rk_nc <? num_circuits b then None
    else
      obind (domain_new T (log2_circuits b)) (fun d =>
      let circuits := rb_internal b ++ rb_bonding b ++ rb_steps b ++ rb_app b in
      let plans := map (fun c => floor_plan (ob_segs c)) circuits in
      let lk := lookup_go d (log2_circuits b) 0 (length circuits) [] in
      let r := mk_registry d circuits plans lk f1 in
      obind (compute_registry_digest r) (fun k => Some (mk_registry d circuits plans lk k))).
End Reg.

(** lib.rs:215-283 [into_circuit_object] and the [Processed] object it returns:
    the object of a circuit given by its program; the metrics' constants (lib.rs
    calls [metrics::eval]) are the parameters of [circuit_object].  A panic of an
    evaluator is [None]. *)
Definition prog_cobj {F : Field} (x0 x1 x2 x3 yc onec hc : F) (lg : nat) (body : prog F) (outs : list wref)
  : option (cobj F) :=
  let n := rk_n lg in let nc := rk_nc lg in
  obind (circuit_object x0 x1 x2 x3 yc onec hc n nc body outs) (fun segs =>
  Some (mk_cobj F (fun x y plan => sxy_eval n nc body outs x y plan)
                  (fun x plan => sx_eval n nc body outs x plan)
                  (fun y plan => sy_eval n nc body outs y plan)
                  (map (fun s => (sr_gates F s, sr_cons F s)) segs))).
