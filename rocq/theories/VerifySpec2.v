(** An application: its registered steps with their code, and the two registries. *)
From Coq Require Import List Arith NArith.
From Verif Require Import FieldDef ModDef ArithModel FFTModel SparseModel SparseSpec GadgetModel CircModel CircSpec StageModel RegModel RegSpec PcdModel PcdSpec SpongeModel AppModel AppSpec CompileModel CompileSpec Props_App VerifyModel VerifySpec.
Import ListNotations.
Local Open Scope nat_scope.

(** a place that belongs to a step *)
Definition step_place (n : nat) (p : place) : Prop := match p with PCircuit _ => False | PStep _ => True | PApp i => i < n end.

Section App.
  Variables (F Fs : Field) (T : TwoAdic F) (Ts : TwoAdic Fs) (lg : nat).
  Variables (repr : F -> N) (reprs : Fs -> N).
  (* the hash functions of the two digests *)
  Variables (hash : list N -> list N) (to_bytes : F -> list N) (from_uniform : list N -> F) (f_of_u64 : N -> F).
  Variables (hash' : list N -> list N) (to_bytes' : Fs -> list N) (from_uniform' : list N -> Fs) (f_of_u64' : N -> Fs).
  (* the constants of the metrics, and the parameters of the recursion circuits *)
  Variables (x0 x1 x2 x3 yc onec hc : F) (cb : F) (hs M N' : nat) (P : pparams F) (of_u : N -> F) (tag : list N)
    (nbits : nat) (gen : F) (fsqrt : F -> option F) (zeta : F).
  (* the steps, the internal steps, the nested circuits *)
  Variables (l : list (step F)) (sobj : istep -> option (cobj F)) (nsteps : nat) (nobj : ncid -> option (cobj Fs)).
  (* the code of the steps' circuits *)
  Variable code : place -> circuit F.
  Definition iobj (log2 : nat) : icid -> option (cobj F) :=
    native_obj T x0 x1 x2 x3 yc onec hc lg cb hs M N' P of_u tag nbits gen fsqrt zeta log2.
  Local Notation log2 := (Nat.log2_up (length l + 15)).

  (** registration and finalisation succeed with registries [native] and [nested]; the
      object of a step is that of its code, which writes three headers; keys identify
      the roots of unity *)
  Record built (native : registry F) (nested : registry Fs) : Prop := mk_built {
    bl_run : exists b nb sb, register_steps F Fs (ab_new F Fs) l = Some b /\
             app_finalize F Fs nsteps iobj sobj nobj b = Some (nb, sb) /\
             finalize F T lg repr hash to_bytes from_uniform f_of_u64 nb = Some native /\
             finalize Fs Ts lg reprs hash' to_bytes' from_uniform' f_of_u64' sb = Some nested;
    bl_two : ta_S T <= 32 /\ ta_S Ts <= 32;
    bl_step : forall p, step_place (length l) p -> generic (code p) /\ exists outs, couts (code p) = Some outs /\ length outs = 3 * hs /\
              place_obj l (iobj log2) sobj p = prog_cobj x0 x1 x2 x3 yc onec hc lg (cbody (code p)) outs;
    bl_nested : forall id o, In id (ncid_all nsteps) -> nobj id = Some o -> exists s, obj_is lg o s;
    bl_count : (N.of_nat (nsteps + 11) < 2 ^ 32)%N;
    bl_key : forall w w' : F, fpow w (2 ^ log2) = f1 -> fpow w' (2 ^ log2) = f1 -> omega_key F repr w = omega_key F repr w' -> w = w';
    bl_key' : forall w w' : Fs, fpow w (2 ^ Nat.log2_up (nsteps + 11)) = f1 -> fpow w' (2 ^ Nat.log2_up (nsteps + 11)) = f1 ->
              omega_key Fs reprs w = omega_key Fs reprs w' -> w = w' }.
End App.

(** ** the prover's side *)
Section Honest.
  Variables (F Fs : Field) (H : FMod F) (n nsteps : nat).
  (** the claims over the other curve hold, whatever the challenges, for the wiring
      polynomials [sy] of the nested circuits *)
  Definition nested_honest (circuit_y' : nat -> Fs -> option (poly Fs)) (p : proof F Fs H) : Prop :=
    nsteps <= length (pf_step_rxs p) /\
    forall y' z' (sy : nat -> poly Fs), (forall i, i < nsteps + 11 -> circuit_y' i y' = Some (sy i)) ->
      Forall (nclaim_holds n nsteps z' sy) (nested_own f1 nsteps (nested_poly p) ++ nested_bond f0 nsteps [nested_poly p]).
  (** the folded claim, the opening, the commitment, and the registry polynomial *)
  Definition opens (gens : list H) (reg : F -> F -> option (poly F)) (p : proof F Fs H) : Prop :=
    fsum (4 * n) (fun k => fmul (coeff_at (pf_a p) k) (coeff_at (pf_b p) (4 * n - 1 - k))) = pf_c p /\
    fsum (4 * n) (fun k => fmul (coeff_at (pf_p p) k) (fpow (pf_chal p Ch_u) k)) = pf_v p /\
    msum (4 * n) (fun k => mscale (coeff_at (pf_p p) k) (nth k gens m0)) = pf_p_commitment p /\
    exists q, reg (pf_chal p Ch_x) (pf_chal p Ch_y) = Some q /\ forall e, coeff_at (pf_registry_xy p) e = coeff_at q e.
  (** a proof with its native traces replaced *)
  Definition with_traces (p : proof F Fs H) (app pre ie oe q e h1 h2 ic oc cv : poly F) : proof F Fs H :=
    mk_proof (pf_circuit_id p) (pf_left_header p) (pf_right_header p) app pre ie oe q e h1 h2 ic oc cv
      (pf_a p) (pf_b p) (pf_c p) (pf_registry_xy p) (pf_p p) (pf_p_commitment p) (pf_v p)
      (pf_step_rxs p) (pf_endoscalar_rx p) (pf_points_rx p) (pf_bridge p) (pf_chal p).
End Honest.
Arguments nested_honest {F Fs H}. Arguments opens {F Fs H}. Arguments with_traces {F Fs H}.
