(** Folding of revdot claims (crates/ragu_pcd/src/internal/fold_revdot.rs) and the
    commitment-tracking polynomials of the fuse pipeline
    (crates/ragu_pcd/src/fuse/claims.rs, fuse/_06_ab.rs).  Panics are [None]. *)
From Coq Require Import List Arith Bool.
From Verif Require Import FieldDef ModDef ArithModel SparseModel GadgetModel PrimModel.
Import ListNotations.
Local Open Scope nat_scope.

(** std [slice::chunks]: [None] is its panic on chunk size zero *)
Fixpoint chunks_go {T : Type} (fuel m : nat) (l : list T) : list (list T) :=
  match fuel, l with
  | S fuel', _ :: _ => firstn m l :: chunks_go fuel' m (skipn m l)
  | _, _ => []
  end.
Definition chunks {T : Type} (m : nat) (l : list T) : option (list (list T)) :=
  if m =? 0 then None else Some (chunks_go (length l) m l).
(** [collect_fixed().expect(..)] *)
Definition fixed {T : Type} (L : nat) (l : list T) : option (list T) :=
  match fv_collect (E := unit) L l with VOk v => Some v | _ => None end.
Fixpoint opt_all {A B : Type} (f : A -> option B) (l : list A) : option (list B) :=
  match l with
  | [] => Some []
  | x :: r => match f x with Some y => option_map (cons y) (opt_all f r) | None => None end
  end.

(** fold_revdot.rs:19-22 [Foldable]; [fd_add] may panic *)
Record foldable (F : Field) (T : Type) := mk_foldable
  { fd_default : T; fd_scale : F -> T -> T; fd_add : T -> T -> option T }.
Arguments mk_foldable {F T}. Arguments fd_default {F T}. Arguments fd_scale {F T}. Arguments fd_add {F T}.

Section Fold.
  Variable F : Field.
  Local Notation poly := (list (nat * list F)).

  (** fold_revdot.rs:24-31: polynomials *)
  Definition poly_foldable (NC : nat) : foldable F poly := mk_foldable p_new p_scale (p_add NC).

  (** fold_revdot.rs:34-43 [fold] *)
  Definition g_fold {T : Type} (fd : foldable F T) (items : list T) (s : F) : option T :=
    fold_left (fun acc item => match acc with None => None | Some a => fd_add fd (fd_scale fd s a) item end)
              items (Some (fd_default fd)).

  (** fold_revdot.rs:75-77 [off_diagonal_pairs] *)
  Definition off_diagonal (n : nat) : list (nat * nat) :=
    flat_map (fun i => flat_map (fun j => if negb (i =? j) then [(i, j)] else []) (seq 0 n)) (seq 0 n).
  (** fold_revdot.rs:66-72 [NumErrorTerms] *)
  Definition num_error_terms (n : nat) : nat := n * n - n.

  (** fold_revdot.rs:89-117 [fold_inner]; M = GroupSize, N = NumGroups *)
  Definition fold_inner {T : Type} (fd : foldable F T) (M N : nat) (source : list T) (s : F) : option (list T) :=
    if M * N <? length source then None else
    match chunks M source with
    | None => None
    | Some cs =>
        match opt_all (fun c => g_fold fd (c ++ repeat (fd_default fd) (M - length c)) s) cs with
        | None => None
        | Some rs => fixed N (firstn N (rs ++ repeat (fd_default fd) N))
        end
    end.
  (** fold_revdot.rs:124-129 [fold_outer] *)
  Definition fold_outer {T : Type} (fd : foldable F T) (source : list T) (s : F) : option T := g_fold fd source s.

  (** fold_revdot.rs:135-170 [compute_errors_impl] *)
  Definition compute_errors (NC outer inner : nat) (a b : list poly) : option (list (list F)) :=
    if negb (length a =? length b) then None else
    if outer * inner <? length a then None else
    match chunks inner a, chunks inner b with
    | Some ca, Some cb =>
        match opt_all (fun ab : list poly * list poly =>
                 fixed (num_error_terms inner)
                   (map (fun ij => match nth_error (fst ab) (fst ij), nth_error (snd ab) (snd ij) with
                                   | Some l, Some r => p_revdot NC l r
                                   | _, _ => f0
                                   end) (off_diagonal inner))) (combine ca cb) with
        | None => None
        | Some es => fixed outer (firstn outer (es ++ repeat (repeat f0 (num_error_terms inner)) outer))
        end
    | _, _ => None
    end.
  (** fold_revdot.rs:173-178 [inner_error_terms] *)
  Definition inner_error_terms (NC M N : nat) (a b : list poly) := compute_errors NC N M a b.
  (** fold_revdot.rs:181-189 [outer_error_terms] *)
  Definition outer_error_terms (NC N : nat) (a b : list poly) : option (list F) :=
    match compute_errors NC 1 N a b with
    | Some (g :: _) => Some g
    | _ => None
    end.

  (** ** in-circuit folding *)
  Section Gad.
    Variable W : Type.
    Variable one : W.
    Local Notation G := (G F W).
    Local Notation elem := (elem F W).

    (** crates/ragu_circuits/src/horner.rs:55-63 [write], 41-43 [finish] *)
    Definition hz_write (point : elem) (acc : option elem) (v : elem) : G (option elem) :=
      match acc with
      | Some a => m <- e_mul F W a point ;; r <- e_add F W m v ;; GRet (Some r)
      | None => GRet (Some v)
      end.
    Definition hz_finish (wit : bool) (acc : option elem) : G elem :=
      match acc with Some r => GRet r | None => e_zero F W one wit end.

    (** fold_revdot.rs:195-206 [ClaimFolder], [new] *)
    Record cfolder := mk_cfolder { cf_mu_nu : elem; cf_mu_inv : elem }.
    Definition cf_new (mu nu : elem) : G cfolder :=
      mu_nu <- e_mul F W mu nu ;; mu_inv <- e_invert F W one mu ;; GRet (mk_cfolder mu_nu mu_inv).

    (** fold_revdot.rs:230-262 [fold_products_impl]; the two iterators are the
        remaining lists, [expect] on an exhausted one is [GErr] *)
    Fixpoint fp_row (mu_nu : elem) (i : nat) (js : list nat) (errs kys : list elem) (acc : option elem)
      : G (option elem * (list elem * list elem)) :=
      match js with
      | [] => GRet (acc, (errs, kys))
      | j :: js' =>
          if i =? j
          then match kys with
               | [] => GErr
               | t :: kys' => acc' <- hz_write mu_nu acc t ;; fp_row mu_nu i js' errs kys' acc'
               end
          else match errs with
               | [] => GErr
               | t :: errs' => acc' <- hz_write mu_nu acc t ;; fp_row mu_nu i js' errs' kys acc'
               end
      end.
    Fixpoint fp_rows (wit : bool) (cf : cfolder) (n : nat) (is : list nat) (errs kys : list elem) (acc : option elem)
      : G (option elem) :=
      match is with
      | [] => GRet acc
      | i :: is' =>
          row <- fp_row (cf_mu_nu cf) i (seq 0 n) errs kys None ;;
          v <- hz_finish wit (fst row) ;;
          acc' <- hz_write (cf_mu_inv cf) acc v ;;
          fp_rows wit cf n is' (fst (snd row)) (snd (snd row)) acc'
      end.
    Definition fold_products (wit : bool) (n : nat) (cf : cfolder) (errs kys : list elem) : G elem :=
      acc <- fp_rows wit cf n (seq 0 n) errs kys None ;; hz_finish wit acc.
    (** fold_revdot.rs:209-216 [fold_inner], 219-226 [fold_outer]: lengths M and N *)

    (** fold_revdot.rs:264-288 [fold_two_layer] *)
    Fixpoint tl_groups (wit : bool) (m : nat) (zero l1 : elem) (cs : list (list elem)) : G (list elem) :=
      match cs with
      | [] => GRet []
      | c :: r =>
          v <- e_fold F W one wit (c ++ repeat zero (m - length c)) l1 ;;
          t <- tl_groups wit m zero l1 r ;; GRet (v :: t)
      end.
    Definition fold_two_layer (wit : bool) (M N : nat) (sources : list elem) (l1 l2 : elem) : G elem :=
      zero <- e_zero F W one wit ;;
      match chunks M sources with
      | None => GErr
      | Some cs =>
          results <- tl_groups wit M zero l1 cs ;;
          e_fold F W one wit (results ++ repeat zero (N - length results)) l2
      end.
  End Gad.

  (** ** commitment tracking *)
  Section Tracked.
    Variables (K : Type) (keqb : K -> K -> bool). (* [K: Copy], [==] on keys *)
    (** fuse/claims.rs:41-43 [CommitmentDecomposition], 77-80 [TrackedPoly] *)
    Definition decomp := list (K * F).
    Definition tracked : Type := poly * decomp.
    (** fuse/claims.rs:53-57, 97-100 [single] *)
    Definition t_single (p : poly) (key : K) : tracked := (p, [(key, f1)]).
    (** fuse/claims.rs:82-89 [default], 103-114 [Foldable] *)
    Definition t_scale (by_ : F) (t : tracked) : tracked :=
      (p_scale by_ (fst t), map (fun kc => (fst kc, fmul (snd kc) by_)) (snd t)).
    Definition t_add (NC : nat) (t u : tracked) : option tracked :=
      option_map (fun p => (p, snd t ++ snd u)) (p_add NC (fst t) (fst u)).
    Definition tracked_foldable (NC : nat) : foldable F tracked := mk_foldable (p_new, []) t_scale (t_add NC).
    (** crates/ragu_pcd/src/internal/claims.rs:16-31 [sum_polynomials] *)
    Definition sum_polynomials (NC : nat) (rxs : list poly) : option poly :=
      match rxs with
      | [] => None
      | first :: rest => fold_left (fun acc rx => match acc with None => None | Some s => p_add NC s rx end) rest (Some first)
      end.
    (** fuse/claims.rs:235-249: the tracked polynomial of an internal circuit claim *)
    Definition t_sum (NC : nat) (atoms : list (K * poly)) : option tracked :=
      option_map (fun p => (p, map (fun a => (fst a, f1)) atoms)) (sum_polynomials NC (map snd atoms)).
    (** fuse/claims.rs:251-262: the tracked polynomial of a bonding claim *)
    Definition t_bond (NC : nat) (atoms : list (K * poly)) (z : F) : option tracked :=
      g_fold (tracked_foldable NC) (map (fun a => t_single (snd a) (fst a)) atoms) z.
    (** fuse/_06_ab.rs:114-121: merging terms with equal keys *)
    Fixpoint add_entry (entries : decomp) (key : K) (c : F) : decomp :=
      match entries with
      | [] => [(key, c)]
      | (k, d) :: r => if keqb k key then (k, fadd d c) :: r else (k, d) :: add_entry r key c
      end.
    Definition dedup (terms : decomp) : decomp :=
      fold_left (fun es kc => add_entry es (fst kc) (snd kc)) terms [].
    (** fuse/_06_ab.rs:123-130: the small MSM; [ragu_arithmetic::mul] is the sum of
        the scaled bases (proved for its algorithm in C08) *)
    Definition resolve {M : FMod F} (get : K -> M) (terms : decomp) : M :=
      fold_right (fun kc acc => madd (mscale (snd kc) (get (fst kc))) acc) m0 (dedup terms).
  End Tracked.
End Fold.
Arguments g_fold {F T}. Arguments fold_inner {F T}. Arguments fold_outer {F T}. Arguments compute_errors {F}.
Arguments inner_error_terms {F}. Arguments outer_error_terms {F}. Arguments poly_foldable {F}.
Arguments sum_polynomials {F}.
Arguments hz_write {F W}. Arguments hz_finish {F W}. Arguments cf_new {F W}. Arguments fp_row {F W}. Arguments fp_rows {F W}.
Arguments fold_products {F W}. Arguments tl_groups {F W}. Arguments fold_two_layer {F W}.
Arguments mk_cfolder {F W}. Arguments cf_mu_nu {F W}. Arguments cf_mu_inv {F W}.
Arguments t_single {F K}. Arguments t_scale {F K}. Arguments t_add {F K}. Arguments tracked_foldable {F K}.
Arguments t_sum {F K}. Arguments t_bond {F K}. Arguments add_entry {F K}. Arguments dedup {F K}. Arguments resolve {F K} _ {M}.
