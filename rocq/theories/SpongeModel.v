(** Poseidon permutation, sponge and transcript
    (crates/ragu_primitives/src/poseidon.rs, crates/ragu_pcd/src/internal/transcript.rs). *)
From Coq Require Import List Arith NArith ZArith Bool.
From Verif Require Import FieldDef ArithModel ArithSpec GadgetModel.
Import ListNotations.
Open Scope g_scope.

(** crates/ragu_arithmetic/src/lib.rs:188-217 [PoseidonPermutation] *)
Record pparams (F : Field) := mk_pparams {
  pp_T : nat; pp_RATE : nat; pp_FULL : nat; pp_PARTIAL : nat; pp_ALPHA : Z;
  pp_rcs : list (list F); (* round_constants *)
  pp_mds : list (list F)  (* mds_matrix *) }.
Arguments pp_T {F}. Arguments pp_RATE {F}. Arguments pp_FULL {F}. Arguments pp_PARTIAL {F}.
Arguments pp_ALPHA {F}. Arguments pp_rcs {F}. Arguments pp_mds {F}.

(** the errors the sponge itself raises: poseidon.rs:170-173 (Initialization), 31-38 (SaveError) *)
Inductive serr := ENothingToSqueeze | EAlreadyInSqueezeMode | ENothingAbsorbed.

Section Poseidon.
  Variable F : Field.
  Variable W : Type.
  Variable one : W.
  Variable wit : bool.
  Variable P : pparams F.
  Local Notation G := (G F W).
  Local Notation elem := (elem F W).

  (** poseidon.rs:309-321 [sbox]; the panic for alpha <> 5 is [GErr] *)
  Fixpoint sbox (input : list elem) : G (list elem) :=
    match input with
    | [] => GRet []
    | x :: r =>
        if Z.eqb (pp_ALPHA P) 5 then
          x2 <- e_square F W x ;; x4 <- e_square F W x2 ;; x5 <- e_mul F W x4 x ;;
          r' <- sbox r ;; GRet (x5 :: r')
        else GErr
    end.
  (** poseidon.rs:323-340 [mds]: the scratch vector of row sums replaces the state *)
  Fixpoint mds_rows (state : list elem) (rows : list (list F)) : G (list elem) :=
    match rows with
    | [] => GRet []
    | row :: r => e <- e_multiadd F W wit state row ;; t <- mds_rows state r ;; GRet (e :: t)
    end.
  Definition mds (state : list elem) : G (list elem) :=
    if Nat.eqb (length state) (length (pp_mds P)) then mds_rows state (pp_mds P) else GErr.
  (** poseidon.rs:342-351 [add_round_constants] *)
  Fixpoint add_rcs (state : list elem) (rc : list F) : G (list elem) :=
    match state, rc with
    | x :: s, c :: r => x' <- e_add_coeff F W x (e_one F W one wit) (CArb c) ;; t <- add_rcs s r ;; GRet (x' :: t)
    | _, _ => GRet []
    end.
  Definition add_round_constants (state : list elem) (rc : list F) : G (list elem) :=
    if Nat.eqb (length state) (length rc) then add_rcs state rc else GErr.
  (** poseidon.rs:392-407: one round, s-box on the first [elems] elements; the
      slice panic is [GErr] *)
  Definition round (state : list elem) (elems : nat) (rc : list F) : G (list elem) :=
    st <- add_round_constants state rc ;;
    if Nat.leb elems (length st) then
      h <- sbox (firstn elems st) ;; mds (h ++ skipn elems st)
    else GErr.
  (** poseidon.rs:409-416; [rcs.next().expect] is [GErr] when constants run out *)
  Fixpoint rounds (state : list elem) (plan : list nat) (rcs : list (list F)) : G (list elem) :=
    match plan with
    | [] => GRet state
    | k :: plan' =>
        match rcs with
        | [] => GErr
        | rc :: rcs' => st <- round state k rc ;; rounds st plan' rcs'
        end
    end.
  (** poseidon.rs:383-417 [Permutation::execute] *)
  Definition permutation (state : list elem) : G (list elem) :=
    rounds state (repeat (pp_T P) (Nat.div (pp_FULL P) 2) ++ repeat 1 (pp_PARTIAL P)
                  ++ repeat (pp_T P) (Nat.div (pp_FULL P) 2)) (pp_rcs P).

  (** ** the sponge; [perm] is the routine *)
  Variable perm : list elem -> G (list elem).
  (** poseidon.rs:54-63 [Mode], 81-84 [Sponge] *)
  Inductive sponge := SqueezeMode (values state : list elem) | AbsorbMode (values state : list elem).
  (** poseidon.rs:304-306 [get_rate] *)
  Definition get_rate (state : list elem) : list elem := rev (firstn (pp_RATE P) state).
  (** poseidon.rs:107-119 [new] *)
  Definition sp_new : G sponge := z <- e_zero F W one wit ;; GRet (AbsorbMode [] (repeat z (pp_T P))).
  (** poseidon.rs:128-130: zip *)
  Fixpoint add_values (state values : list elem) : G (list elem) :=
    match state, values with
    | s :: st, v :: vs => s' <- e_add F W s v ;; r <- add_values st vs ;; GRet (s' :: r)
    | st, [] => GRet st
    | [], _ => GRet []
    end.
  (** poseidon.rs:121-137 [permute] *)
  Definition sp_permute (m : sponge) : G sponge :=
    match m with
    | SqueezeMode _ state => st <- perm state ;; GRet (SqueezeMode (get_rate st) st)
    | AbsorbMode values state => st0 <- add_values state values ;; st <- perm st0 ;; GRet (AbsorbMode [] st)
    end.
  (** poseidon.rs:141-155 [values], [state] *)
  Definition sp_values (m : sponge) := match m with SqueezeMode v _ => v | AbsorbMode v _ => v end.
  Definition sp_state (m : sponge) := match m with SqueezeMode _ s => s | AbsorbMode _ s => s end.
  (** poseidon.rs:158-193 [squeeze]: recursive; running out of fuel (only for a
      zero rate or width) is the stack overflow *)
  Fixpoint sp_squeeze_go (fuel : nat) (m : sponge) : G (serr + elem * sponge) :=
    match fuel with
    | O => GErr
    | S fuel' =>
        match m with
        | SqueezeMode values state =>
            match rev values with
            | [] => m' <- sp_permute m ;; sp_squeeze_go fuel' m'
            | v :: r => GRet (inr (v, SqueezeMode (rev r) state))
            end
        | AbsorbMode values state =>
            match values with
            | [] => GRet (inl ENothingToSqueeze)
            | _ => m' <- sp_permute m ;; sp_squeeze_go fuel' (SqueezeMode (get_rate (sp_state m')) (sp_state m'))
            end
        end
    end.
  Definition sp_squeeze : sponge -> G (serr + elem * sponge) := sp_squeeze_go 3.
  (** poseidon.rs:196-224 [absorb]; the assertion is [GErr] *)
  Fixpoint sp_absorb_go (fuel : nat) (m : sponge) (value : elem) : G sponge :=
    match fuel with
    | O => GErr
    | S fuel' =>
        let retry m' := m'' <- sp_absorb_go fuel' m' value ;;
                        match sp_values m'' with [] => GErr | _ => GRet m'' end in
        match m with
        | SqueezeMode _ state => retry (AbsorbMode [] state)
        | AbsorbMode values state =>
            if Nat.eqb (length values) (pp_RATE P) then m' <- sp_permute m ;; retry m'
            else GRet (AbsorbMode (values ++ [value]) state)
        end
    end.
  Definition sp_absorb : sponge -> elem -> G sponge := sp_absorb_go 3.
  (** poseidon.rs:239-261 [save_state] *)
  Definition sp_save (m : sponge) : G (serr + list elem) :=
    match m with
    | SqueezeMode _ _ => GRet (inl EAlreadyInSqueezeMode)
    | AbsorbMode [] _ => GRet (inl ENothingAbsorbed)
    | AbsorbMode _ _ =>
        m' <- sp_permute m ;;
        match m' with AbsorbMode _ state => GRet (inr state) | SqueezeMode _ _ => GErr end
    end.
  (** poseidon.rs:267-275 [resume] *)
  Definition sp_resume (state : list elem) : sponge := SqueezeMode (get_rate state) state.

  (** a caller's history: absorbs and squeezes in any order, stopping at an error;
      and a save immediately resumed (transcript.rs:114-136) *)
  Inductive sop := OAbsorb (e : elem) | OSqueeze | OSaveResume.
  Fixpoint sp_run (ops : list sop) (m : sponge) : G (serr + list elem * sponge) :=
    match ops with
    | [] => GRet (inr ([], m))
    | OAbsorb e :: r => m' <- sp_absorb m e ;; sp_run r m'
    | OSqueeze :: r =>
        t <- sp_squeeze m ;;
        match t with
        | inl e => GRet (inl e)
        | inr (v, m') => u <- sp_run r m' ;;
            match u with inl e => GRet (inl e) | inr (vs, m'') => GRet (inr (v :: vs, m'')) end
        end
    | OSaveResume :: r =>
        t <- sp_save m ;;
        match t with inl e => GRet (inl e) | inr st => sp_run r (sp_resume st) end
    end.

  (** ** transcript (transcript.rs) *)
  (** [u128::from_le_bytes] of a chunk padded with zeros to 16 bytes (transcript.rs:95-97) *)
  Fixpoint le_value (bytes : list N) : N :=
    match bytes with [] => 0 | b :: r => b + 256 * le_value r end%N.
  (** [slice::chunks(16)]; [fuel] bounds the recursion *)
  Fixpoint chunks16 (fuel : nat) (tag : list N) : list (list N) :=
    match fuel, tag with
    | O, _ | _, [] => []
    | S fuel', _ => firstn 16 tag :: chunks16 fuel' (skipn 16 tag)
    end.
  (** [D::F::from(u64)], [D::F::from_u128] *)
  Variable of_u : N -> F.
  (** transcript.rs:84-102 [Transcript::new]: the elements absorbed, in order *)
  Definition tag_values (tag : list N) : list F :=
    of_u (N.of_nat (length tag)) :: map (fun c => of_u (le_value c)) (chunks16 (length tag) tag).
  Fixpoint absorb_constants (vs : list F) (m : sponge) : G sponge :=
    match vs with
    | [] => GRet m
    | v :: r => e <- e_constant F W one wit v ;; m' <- sp_absorb m e ;; absorb_constants r m'
    end.
  Definition tr_new (tag : list N) : G sponge := m <- sp_new ;; absorb_constants (tag_values tag) m.
  (** transcript.rs:105-107 [challenge] *)
  Definition tr_challenge (m : sponge) : G (serr + elem * sponge) := sp_squeeze m.
  (** transcript.rs:146-176 [ResumedTranscript]: the flag guards
      [into_transcript] *)
  Record resumed := mk_resumed { rs_sponge : sponge; rs_squeezed : bool }.
  Definition tr_resume (state : list elem) : resumed := mk_resumed (sp_resume state) false.
  Definition rs_challenge (t : resumed) : G (serr + elem * resumed) :=
    r <- sp_squeeze (rs_sponge t) ;;
    match r with inl e => GRet (inl e) | inr (v, m) => GRet (inr (v, mk_resumed m true)) end.
  Definition rs_into (t : resumed) : G sponge := if rs_squeezed t then GRet (rs_sponge t) else GErr.
End Poseidon.
Arguments SqueezeMode {F W}. Arguments AbsorbMode {F W}. Arguments OAbsorb {F W}. Arguments OSqueeze {F W}.
Arguments OSaveResume {F W}.
