(** The prover's side of the opening argument of a step: the evaluations it claims,
    the quotient polynomial f and the accumulated polynomial p.

    Source: crates/ragu_pcd/src/fuse/_07_query.rs, _08_f.rs, _09_eval.rs, _10_p.rs,
    internal/native/stages/query.rs, internal/native/stages/eval.rs.

    The polynomials a step works on are kept in the record [evalout], whose fields
    are those of the evaluations at u: for each child its traces, its a, b,
    registry_xy and p polynomials, then the step's registry_wx0, registry_wx1,
    registry_wy, a, b and registry_xy.  Of a child's challenges and circuit the record
    [cdenoms] keeps u, y, x and the identifier omega_j of its circuit.  Left out: the
    stage traces, bridges and commitments of these functions other than the
    commitment of p. *)
From Coq Require Import List Arith Bool.
From Verif Require Import FieldDef ModDef ArithModel SparseModel EscModel PcdModel RecModel.
Import ListNotations.

(** the fields of [evalout] in the order of [eval_write], given by hand: the order in
    which _10_p.rs:90-121 accumulates *)
Definition p_child {T : Type} (c : ceval T) : list T :=
  map (ce_rx c) rxid_all ++ [ce_a c] ++ [ce_b c] ++ [ce_xy c] ++ [ce_p c].
Definition p_order {T : Type} (e : evalout T) : list T :=
  flat_map p_child [eo_left e; eo_right e] ++ [eo_wx0 e] ++ [eo_wx1 e] ++ [eo_wy e] ++ [eo_a e] ++ [eo_b e] ++ [eo_xy e].

Section Qv.
  Variable F : Field.
  Variable NC : nat.  (* R::num_coeffs() *)
  Local Notation poly := (poly F).

  (** ** _07_query.rs:62-106 and stages/query.rs:62-79 *)
  (** query.rs:62-79 [ChildEvaluationsWitness::from_proof] *)
  Definition child_query (c : ceval poly) (d : cdenoms F) (w x xz : F) (xy wy : poly) : cquery F :=
    mk_cquery (fun id => p_eval NC (ce_rx c id) xz) (p_eval NC (ce_a c) xz) (p_eval NC (ce_b c) x)
              (p_eval NC (ce_xy c) w) (p_eval NC xy (cd_cid d)) (p_eval NC wy (cd_x d)).
  (** _07_query.rs:76-106 *)
  Definition native_query (ps : evalout poly) (l r : cdenoms F) (w y z x : F) (omega : icid -> F) : queryout F :=
    let xz := fmul x z in
    mk_queryout (fun id => p_eval NC (eo_xy ps) (omega id)) (p_eval NC (eo_xy ps) w)
                (child_query (eo_left ps) l w x xz (eo_xy ps) (eo_wy ps))
                (child_query (eo_right ps) r w x xz (eo_xy ps) (eo_wy ps)).

  (** ** _09_eval.rs:77-94 and stages/eval.rs:31-39 *)
  (** eval.rs:31-39 [ChildEvaluationsWitness::from_proof] *)
  Definition child_eval (c : ceval poly) (u : F) : ceval F :=
    mk_ceval (fun id => p_eval NC (ce_rx c id) u) (p_eval NC (ce_a c) u) (p_eval NC (ce_b c) u) (p_eval NC (ce_xy c) u)
             (p_eval NC (ce_p c) u).
  Definition native_eval (ps : evalout poly) (u : F) : evalout F :=
    mk_evalout (child_eval (eo_left ps) u) (child_eval (eo_right ps) u) (p_eval NC (eo_wx0 ps) u) (p_eval NC (eo_wx1 ps) u)
               (p_eval NC (eo_wy ps) u) (p_eval NC (eo_a ps) u) (p_eval NC (eo_b ps) u) (p_eval NC (eo_xy ps) u).

  (** ** _08_f.rs *)
  (** the coefficients an iterator of [iter_coeffs] yields, run from the front *)
  Fixpoint drain (fuel : nat) (bs : poly) (it : citer) : list F :=
    match fuel with
    | O => []
    | S k => match ci_next bs it with (it', Some c) => c :: drain k bs it' | (_, None) => [] end
    end.
  Definition coeffs_of (p : poly) : list F := drain NC p (iter_coeffs NC p).
  (** _08_f.rs:94-167: the polynomials and points given to [factor_iter], in order *)
  Definition f_queries (ps : evalout poly) (l r : cdenoms F) (w y z x : F) (omega : icid -> F) : list (poly * F) :=
    let xz := fmul x z in
    [(ce_p (eo_left ps), cd_u l); (ce_p (eo_right ps), cd_u r);
     (ce_xy (eo_left ps), w); (ce_xy (eo_right ps), w);
     (eo_wx0 ps, cd_y l); (eo_wx1 ps, cd_y r);
     (eo_wx0 ps, y); (eo_wx1 ps, y);
     (eo_wy ps, cd_x l); (eo_wy ps, cd_x r); (eo_wy ps, x); (eo_xy ps, w);
     (eo_xy ps, cd_cid l); (eo_xy ps, cd_cid r);
     (ce_a (eo_left ps), xz); (ce_b (eo_left ps), x);
     (ce_a (eo_right ps), xz); (ce_b (eo_right ps), x);
     (eo_a ps, xz); (eo_b ps, x)]
    ++ flat_map (fun c => map (fun id => (ce_rx c id, xz)) rxid_all) [eo_left ps; eo_right ps]
    ++ map (fun id => (eo_xy ps, omega id)) icid_all.
  (** _08_f.rs:172-174: [rest.fold(val, ..)], the iterators advanced; [None] is the
      panic of [iter.next().unwrap()] *)
  Fixpoint f_heads (alpha acc : F) (rest : list (list F)) : option (F * list (list F)) :=
    match rest with
    | [] => Some (acc, [])
    | [] :: _ => None
    | (c :: it) :: rest' =>
        match f_heads alpha (fadd (fmul alpha acc) c) rest' with
        | Some (acc', its) => Some (acc', it :: its)
        | None => None
        end
    end.
  (** _08_f.rs:171-176 *)
  Fixpoint f_loop (alpha : F) (first : list F) (rest : list (list F)) : option (list F) :=
    match first with
    | [] => Some []
    | val :: first' =>
        match f_heads alpha val rest with
        | Some (c, rest') => option_map (cons c) (f_loop alpha first' rest')
        | None => None
        end
    end.
  Fixpoint f_iters (qs : list (poly * F)) : option (list (list F)) :=
    match qs with
    | [] => Some []
    | (p, x) :: qs' =>
        match factor_iter (coeffs_of p) x, f_iters qs' with
        | Some it, Some its => Some (it :: its)
        | _, _ => None
        end
    end.
  (** _08_f.rs:169-179, on the queries collected so far ([None] also stands for the
      panic of [split_first_mut().unwrap()]) *)
  Definition quotient_poly (alpha : F) (qs : list (poly * F)) : option poly :=
    match f_iters qs with
    | Some (first :: rest) =>
        match f_loop alpha first rest with
        | Some coeffs => from_coeffs NC (rev coeffs)
        | None => None
        end
    | _ => None
    end.
  (** _08_f.rs:76-183 [compute_native_f], without the commitment *)
  Definition native_f (ps : evalout poly) (l r : cdenoms F) (w y z x alpha : F) (omega : icid -> F) : option poly :=
    quotient_poly alpha (f_queries ps l r w y z x omega).

  (** ** _10_p.rs *)
  (** _10_p.rs:40-47 [Accumulator::acc], over the polynomials and commitments in order *)
  Fixpoint p_acc {C : Type} (beta : F) (acc : poly) (cms : list C) (l : list (poly * C)) : option (poly * list C) :=
    match l with
    | [] => Some (acc, cms)
    | (q, c) :: l' =>
        match p_add NC (p_scale beta acc) q with
        | Some acc' => p_acc beta acc' (cms ++ [c]) l'
        | None => None
        end
    end.
  (** _10_p.rs:51-190 [compute_p]: the polynomial, its commitment and v.  [beta] is
      the lifted endoscalar; the circuit field is the scalar field of the host curve
      [E], on which the endoscalar acts as [beta].  [None] is the panic of
      [PointsWitness::new] or of [last()]. *)
  Definition compute_p {E : FMod F} (num_points : nat) (beta : F) (u : F) (f : poly * E)
             (ps : evalout (poly * E)) : option (poly * E * F) :=
    match p_acc beta (fst f) [] (p_order ps) with
    | Some (p, cms) =>
        match points_new num_points beta (snd f :: cms) with
        | Some pw =>
            match rev (pw_interstitials pw) with
            | commitment :: _ => Some (p, commitment, p_eval NC p u)
            | [] => None
            end
        | None => None
        end
    | None => None
    end.
End Qv.
Arguments child_query {F}. Arguments native_query {F}. Arguments child_eval {F}. Arguments native_eval {F}.
Arguments drain {F}. Arguments coeffs_of {F}. Arguments f_queries {F}. Arguments f_heads {F}. Arguments f_loop {F}.
Arguments f_iters {F}. Arguments quotient_poly {F}. Arguments native_f {F}. Arguments p_acc {F} NC {C}.
Arguments compute_p {F} NC {E}.
