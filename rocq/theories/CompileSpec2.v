(** What it means for polynomials to pass the checks of a registered circuit. *)
From Coq Require Import List Arith NArith Bool.
From Verif Require Import FieldDef ArithModel SparseModel SparseSpec CircModel CircSpec StageModel CompileModel CompileSpec SatProofs.
Import ListNotations.

(** the circuit fits the rank 4n: its gates, and its constraints with one power of
    y to spare for ONE *)
Definition fits {F : Field} (n : nat) (body : prog F) (outs : list wref) : Prop :=
  list_sum (map fst (sizes (orchestrate body outs))) <= n /\ list_sum (map snd (sizes (orchestrate body outs))) < 4 * n.

(** the circuit claim of [r] against k(y) holds at 4n values of y, for each of them at
    4n values of z ([passes] is SatProofs.v: revdot(r, r(zX) + s(X, y) + t(X, z)) = k(y)) *)
Definition accepted {F : Field} (n : nat) (r : list (nat * list F)) (body : prog F) (outs : list wref) (outputs : list F) (ys : list F) : Prop :=
  forall y, In y ys -> exists zs, NoDup zs /\ 4 * n <= length zs /\ forall z, In z zs -> passes F n r body outs outputs y z.

(** the stage claim of [r] against a mask: revdot(r, mask(X, y)) = 0 *)
Definition unmasked {F : Field} (n : nat) (mask : option (nat * nat)) (r : list (nat * list F)) (y : F) : Prop :=
  exists m s, mask = Some m /\ mask_project n m y = Some s /\ p_revdot (4 * n) r s = f0.
(** the polynomial of stage i passes the check of its stage, the final polynomial
    the check of the last stage's final mask ([vals]: [values()] of the stages, base
    first; the parents of a stage are listed last first, StageModel.v) *)
Definition stage_checked {F : Field} (n : nat) (vals : list nat) (i : nat) (r : list (nat * list F)) (y : F) : Prop :=
  unmasked n (stage_mask n (rev (firstn i vals)) (nth i vals 0)) r y.
Definition final_checked {F : Field} (n : nat) (vals : list nat) (r : list (nat * list F)) (y : F) : Prop :=
  unmasked n (stage_final_mask n (rev (removelast vals)) (last vals 0)) r y.
(** the combined polynomial of a multi-stage circuit: the final one and the stages *)
Definition combined {F : Field} (r rf : list (nat * list F)) (rs : list (list (nat * list F))) : Prop :=
  forall e, coeff_at r e = fadd (coeff_at rf e) (fsum (length rs) (fun i => coeff_at (nth i rs []) e)).

(** ** one multi-stage circuit with its polynomials *)
(** it compiles and fits *)
Definition registered {F : Field} (n : nat) (stages : list (nat * nat)) (k : staged F) : Prop :=
  exists body outs, sprog stages k = Some (body, outs) /\ fits n body outs.
(** a stage polynomial passing its stage check at the given challenges *)
Definition stage_accepted {F : Field} (n : nat) (vals : list nat) (i : nat) (r : list (nat * list F)) (ys : list F) : Prop :=
  wf 0 (4 * n) r /\ Forall (stage_checked n vals i r) ys.
(** a final and a combined polynomial passing the circuit's checks at the given challenges *)
Definition multi_accepted {F : Field} (n : nat) (stages : list (nat * nat)) (k : staged F) (outputs : list F)
    (rf r : list (nat * list F)) (rs : list (list (nat * list F))) (ys : list F) : Prop :=
  wf 0 (4 * n) rf /\ wf 0 (4 * n) r /\ combined r rf rs /\ Forall (final_checked n (map fst stages) rf) ys /\
  exists body outs, sprog stages k = Some (body, outs) /\ fits n body outs /\ length outputs = length outs /\
    accepted n r body outs outputs ys.
(** the same at every challenge; wire c of gate 0 is zero in an honest polynomial *)
Definition stage_passes {F : Field} (n : nat) (vals : list nat) (i : nat) (r : list (nat * list F)) : Prop :=
  wf 0 (4 * n) r /\ forall y, stage_checked n vals i r y.
Definition multi_passes {F : Field} (n : nat) (stages : list (nat * nat)) (k : staged F) (outputs : list F)
    (rf r : list (nat * list F)) (rs : list (list (nat * list F))) : Prop :=
  wf 0 (4 * n) rf /\ coeff_at rf 0 = f0 /\ wf 0 (4 * n) r /\ combined r rf rs /\ (forall y, final_checked n (map fst stages) rf y) /\
  exists body outs, sprog stages k = Some (body, outs) /\ length outputs = length outs /\
    forall y z, passes F n r body outs outputs y z.
