(** Specifications for C14-C20: a direct reading of a circuit program as a list
    of segments (root first, then routines in depth-first preorder), with no
    floor plan, no running monomials and no bounds. *)
From Coq Require Import List Arith Lia Bool.
From Verif Require Import FieldDef ArithModel ArithSpec CircModel.
Import ListNotations.

(** Which of the four wires of a gate. *)
Inductive kind := KA | KB | KC | KD.

(** Counting: own gates of a scope are its gates and multiplications plus one
    gate per started pair of allocations; routines count for themselves. *)
Fixpoint own_gates {F : Field} (p : prog F) : nat :=
  match p with
  | PEnd => 0
  | PGate _ _ _ _ k | PMul _ _ _ k => S (own_gates k)
  | PAlloc _ k | PAdd _ k | PEnforce _ k | PClone _ k | PDrop _ k | PRoutine _ _ _ _ k => own_gates k
  end.
Fixpoint own_allocs {F : Field} (p : prog F) : nat :=
  match p with
  | PEnd => 0
  | PAlloc _ k => S (own_allocs k)
  | PGate _ _ _ _ k | PMul _ _ _ k | PAdd _ k | PEnforce _ k | PClone _ k | PDrop _ k
  | PRoutine _ _ _ _ k => own_allocs k
  end.
Fixpoint own_cons {F : Field} (p : prog F) : nat :=
  match p with
  | PEnd => 0
  | PEnforce _ k => S (own_cons k)
  | PGate _ _ _ _ k | PMul _ _ _ k | PAlloc _ k | PAdd _ k | PClone _ k | PDrop _ k
  | PRoutine _ _ _ _ k => own_cons k
  end.
(** ceiling of half the number of allocations *)
Definition scope_size {F : Field} (p : prog F) : nat * nat :=
  (own_gates p + (S (own_allocs p)) / 2, own_cons p).
Fixpoint sub_sizes {F : Field} (p : prog F) : list (nat * nat) :=
  match p with
  | PEnd => []
  | PRoutine _ _ body _ k => scope_size body :: sub_sizes body ++ sub_sizes k
  | PGate _ _ _ _ k | PMul _ _ _ k | PAlloc _ k | PAdd _ k | PEnforce _ k | PClone _ k
  | PDrop _ k => sub_sizes k
  end.
Definition sizes {F : Field} (p : prog F) : list (nat * nat) := scope_size p :: sub_sizes p.
(** first gate of segment k when segments are laid out one after the other *)
Definition gate_off (szs : list (nat * nat)) (k : nat) : nat := list_sum (firstn k (map fst szs)).
Definition cons_off (szs : list (nat * nat)) (k : nat) : nat := list_sum (firstn k (map snd szs)).

Section Sem.
  Variable F : Field.
  (** value of wire [kind] of the i-th gate of segment s *)
  Variable val : nat -> kind -> nat -> F.
  (** The ONE wire is the b wire of gate 0 of the root. *)
  Definition one_val : F := val 0 KB 0.
  Definition lc_val (env : list F) (lc : list (lcall F wref)) : F :=
    lin_spec (lookup one_val env) lc.

  Record sres := mk_sres {
    sm_env : list F;          (* environment at the end of the scope *)
    sm_own : list F;          (* values of this scope's constraints, in order *)
    sm_subs : list (list F)   (* the same for the routines below, preorder *)
  }.
  (** [sem p sid nxt g av env]: values taken by the wires and constraints of a
      scope that is segment [sid]; routines called from it get the numbers
      [nxt], [nxt+1], ...; [g] gates are already in use, and [av] is the d wire
      left over by an unpaired allocation. *)
  Fixpoint sem (p : prog F) (sid nxt g : nat) (av : option F) (env : list F) : sres :=
    match p with
    | PEnd => mk_sres env [] []
    | PGate _ _ _ _ k =>
        sem k sid nxt (S g) av (env ++ [val sid KA g; val sid KB g; val sid KC g; val sid KD g])
    | PMul _ _ _ k => sem k sid nxt (S g) av (env ++ [val sid KA g; val sid KB g; val sid KC g])
    | PAlloc _ k =>
        match av with
        | Some d => sem k sid nxt g None (env ++ [d])
        | None => sem k sid nxt (S g) (Some (val sid KD g)) (env ++ [val sid KB g])
        end
    | PAdd lc k => sem k sid nxt g av (env ++ [lc_val env lc])
    | PEnforce lc k =>
        let r := sem k sid nxt g av env in
        mk_sres (sm_env r) (lc_val env lc :: sm_own r) (sm_subs r)
    | PClone w k => sem k sid nxt g av (env ++ [lookup one_val env w])
    | PDrop _ k => sem k sid nxt g av env
    | PRoutine _ ins body outs k =>
        let rb := sem body nxt (S nxt) 0 None (map (lookup one_val env) ins) in
        let rk := sem k sid (S nxt + length (sm_subs rb)) g av
                      (env ++ map (lookup one_val (sm_env rb)) outs) in
        mk_sres (sm_env rk) (sm_own rk) (sm_own rb :: sm_subs rb ++ sm_subs rk)
    end.
  (** all constraint values of a closed program, by segment *)
  Definition cons_vals (p : prog F) : list (list F) :=
    let r := sem p 0 1 0 None [] in sm_own r :: sm_subs r.
  (** as coefficients in Y: within a segment the last constraint comes first *)
  Definition y_coeffs (p : prog F) : list F := flat_map (@rev F) (cons_vals p).
End Sem.
Arguments sm_env {F}. Arguments sm_own {F}. Arguments sm_subs {F}.
Arguments sem {F}. Arguments cons_vals {F}. Arguments y_coeffs {F}. Arguments one_val {F}.
Arguments lc_val {F}. Arguments mk_sres {F}.

(** The monomial of each wire at X = x (book: the wiring polynomial). *)
Definition mono {F : Field} (n : nat) (x : F) (k : kind) (i : nat) : F :=
  match k with
  | KA => fpow x (2 * n - 1 - i)
  | KB => fpow x (2 * n + i)
  | KC => fpow x (4 * n - 1 - i)
  | KD => fpow x i
  end.
(** wire values at absolute positions *)
Definition placed {F : Field} (szs : list (nat * nat)) (v : kind -> nat -> F)
  : nat -> kind -> nat -> F := fun s k i => v k (gate_off szs s + i).
(** s(x, y) of a closed program *)
Definition s_spec {F : Field} (n : nat) (p : prog F) (x y : F) : F :=
  peval (y_coeffs (placed (sizes p) (mono n x)) p) y.

(** The gate rows of a scope, in order: an allocation that starts a pair takes
    the next allocation of the same scope as its d value (or 0). *)
Fixpoint next_alloc {F : Field} (p : prog F) : F :=
  match p with
  | PEnd => f0
  | PAlloc v _ => v
  | PGate _ _ _ _ k | PMul _ _ _ k | PAdd _ k | PEnforce _ k | PClone _ k | PDrop _ k
  | PRoutine _ _ _ _ k => next_alloc k
  end.
Fixpoint rows {F : Field} (half : bool) (p : prog F) : list (F * F * F * F) :=
  match p with
  | PEnd => []
  | PGate a b c d k => (a, b, c, d) :: rows half k
  | PMul a b c k => (a, b, c, f0) :: rows half k
  | PAlloc v k => if half then rows false k else (f0, v, f0, next_alloc k) :: rows true k
  | PAdd _ k | PEnforce _ k | PClone _ k | PDrop _ k | PRoutine _ _ _ _ k => rows half k
  end.
Fixpoint sub_rows {F : Field} (p : prog F) : list (list (F * F * F * F)) :=
  match p with
  | PEnd => []
  | PRoutine _ _ body _ k => rows false body :: sub_rows body ++ sub_rows k
  | PGate _ _ _ _ k | PMul _ _ _ k | PAlloc _ k | PAdd _ k | PEnforce _ k | PClone _ k
  | PDrop _ k => sub_rows k
  end.

(** Ownership: every handle that is read, moved or dropped is live at that
    point; [live] has one flag per environment entry. *)
Definition ref_ok (live : list bool) (r : wref) : bool :=
  match r with WOne => true | WVar i => nth i live false end.
Definition lc_ok {F : Field} (live : list bool) (lc : list (lcall F wref)) : bool :=
  forallb (fun op => match op with
                     | LTerm w _ | LAdd w | LSub w => ref_ok live w
                     | LGain _ => true
                     | LExtend ts => forallb (fun t => ref_ok live (fst t)) ts
                     end) lc.
Fixpoint unset (live : list bool) (i : nat) : list bool :=
  match live, i with
  | [], _ => []
  | _ :: r, O => false :: r
  | b :: r, S i' => b :: unset r i'
  end.
Fixpoint take_ok (live : list bool) (rs : list wref) : option (list bool) :=
  match rs with
  | [] => Some live
  | WOne :: r => take_ok live r
  | WVar i :: r => if nth i live false then take_ok (unset live i) r else None
  end.
Fixpoint owned {F : Field} (p : prog F) (live : list bool) : option (list bool) :=
  match p with
  | PEnd => Some live
  | PGate _ _ _ _ k => owned k (live ++ [true; true; true; true])
  | PMul _ _ _ k => owned k (live ++ [true; true; true])
  | PAlloc _ k => owned k (live ++ [true])
  | PAdd lc k => if lc_ok live lc then owned k (live ++ [true]) else None
  | PEnforce lc k => if lc_ok live lc then owned k live else None
  | PClone w k => if ref_ok live w then owned k (live ++ [true]) else None
  | PDrop i k => if nth i live false then owned k (unset live i) else None
  | PRoutine _ ins body outs k =>
      match take_ok live ins with
      | None => None
      | Some live' =>
          match owned body (repeat true (length ins)) with
          | None => None
          | Some cl => match take_ok cl outs with
                       | None => None
                       | Some _ => owned k (live' ++ repeat true (length outs))
                       end
          end
      end
  end.

(** The root scope never reads the d wire of the SYSTEM gate (environment entry
    3).  Every [Circuit] is like this: [CircuitAdapter] drops the SYSTEM wires. *)
Definition ref_hides (r : wref) : bool :=
  match r with WOne => true | WVar i => negb (Nat.eqb i 3) end.
Definition lc_hides {F : Field} (lc : list (lcall F wref)) : bool :=
  forallb (fun op => match op with
                     | LTerm w _ | LAdd w | LSub w => ref_hides w
                     | LGain _ => true
                     | LExtend ts => forallb (fun t => ref_hides (fst t)) ts
                     end) lc.
Fixpoint hides_d {F : Field} (p : prog F) : bool :=
  match p with
  | PEnd => true
  | PAdd lc k | PEnforce lc k => lc_hides lc && hides_d k
  | PClone w k => ref_hides w && hides_d k
  | PRoutine _ ins _ _ k => forallb ref_hides ins && hides_d k
  | PGate _ _ _ _ k | PMul _ _ _ k | PAlloc _ k | PDrop _ k => hides_d k
  end.

(** The linear part of a circuit holds for the wire values [val]: every
    constraint of the body is zero, the output wires carry [outputs], and the
    ONE wire carries 1. *)
Definition system_wires {F : Field} (val : nat -> kind -> nat -> F) : list F :=
  [val 0 KA 0; val 0 KB 0; val 0 KC 0; val 0 KD 0].
Definition linear_ok {F : Field} (val : nat -> kind -> nat -> F) (body : prog F) (outs : list wref)
           (outputs : list F) : Prop :=
  let r := sem val body 0 1 1 None (system_wires val) in
  Forall (fun v => v = f0) (sm_own r) /\
  Forall (Forall (fun v => v = f0)) (sm_subs r) /\
  map (lookup (one_val val) (sm_env r)) outs = outputs /\
  one_val val = f1.
(** wire values read from the four columns of a trace *)
Definition columns {F : Field} (a b c d : list F) (k : kind) (i : nat) : F :=
  match k with KA => nth i a f0 | KB => nth i b f0 | KC => nth i c f0 | KD => nth i d f0 end.
(** a full assignment satisfies the circuit with public outputs [outputs] *)
Definition satisfied {F : Field} n (a b c d : list F) (body : prog F) (outs : list wref) (outputs : list F) : Prop :=
  (forall i, i < n -> fmul (nth i a f0) (nth i b f0) = nth i c f0 /\ fmul (nth i c f0) (nth i d f0) = f0) /\
  linear_ok (placed (sizes (orchestrate body outs)) (columns a b c d)) body outs outputs.
