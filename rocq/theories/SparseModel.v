(** Model of [crates/ragu_circuits/src/polynomials/sparse/{mod,view}.rs].
    [NC] stands for [R::num_coeffs()]; [n] for [R::n()].  A polynomial is its
    block list [Vec<(usize, Vec<F>)>].  [None] is a panic. *)
From Coq Require Import List Arith Bool.
From Verif Require Import FieldDef ModDef ArithModel.
Import ListNotations.

Section Sparse.
  Variable F : Field.
  Variable NC : nat.
  Local Notation block := (nat * list F)%type.
  Local Notation poly := (list (nat * list F)).

  (** mod.rs:73-89 [assert_invariants]; the loop over blocks from index [i] *)
  Fixpoint check_blocks (i prev_end : nat) (bs : poly) : bool :=
    match bs with
    | [] => true
    | (start, data) :: bs' =>
        negb (length data =? 0) && (start + length data <=? NC)
        && (if 0 <? i then prev_end <=? start else true)
        && check_blocks (S i) (start + length data) bs'
    end.
  (** mod.rs:93-100 [from_blocks] *)
  Definition from_blocks (bs : poly) : option poly :=
    if check_blocks 0 0 bs then Some bs else None.

  (** mod.rs:111 *)
  Definition GAP_TOLERANCE := 4.

  (** mod.rs:122-148, the loop of [extend_runs] and its epilogue; [i] is the
      enumeration index *)
  Fixpoint runs_loop (base i : nat) (run_start : option nat) (run : list F) (zero_count : nat)
           (out : poly) (data : list F) : poly :=
    match data with
    | [] => match run_start with Some s => out ++ [(s, run)] | None => out end
    | coeff :: data' =>
        match run_start, feqb coeff f0 with
        | None, true => runs_loop base (S i) None run zero_count out data'
        | None, false => runs_loop base (S i) (Some (base + i)) (run ++ [coeff]) zero_count out data'
        | Some s, false =>
            runs_loop base (S i) (Some s) (run ++ repeat f0 zero_count ++ [coeff]) 0 out data'
        | Some s, true =>
            if GAP_TOLERANCE <? zero_count + 1
            then runs_loop base (S i) None [] 0 (out ++ [(s, run)]) data'
            else runs_loop base (S i) (Some s) run (zero_count + 1) out data'
        end
    end.
  (** mod.rs:117-149 [extend_runs] *)
  Definition extend_runs (out : poly) (base : nat) (data : list F) : poly :=
    runs_loop base 0 None [] 0 out data.

  (** mod.rs:159-164 [new] *)
  Definition p_new : poly := [].

  (** mod.rs:173-184 [from_coeffs] *)
  Definition from_coeffs (coeffs : list F) : option poly :=
    if length coeffs <=? NC then from_blocks (extend_runs [] 0 coeffs) else None.

  (** mod.rs:187-191 [random]; the random coefficients are an input *)
  Definition p_random (coeffs : list F) : option poly :=
    if (0 <? NC) && (length coeffs =? NC) then from_blocks [(0, coeffs)] else None.

  (** mod.rs:196-202 [apply_all] *)
  Definition apply_all (op : F -> F) (p : poly) : poly :=
    map (fun b => (fst b, map op (snd b))) p.

  (** slice update [data[off..off+d.len()]] combined elementwise with d; out of
      range is a panic *)
  Fixpoint zip_with (g : F -> F -> F) (x d : list F) : list F :=
    match x, d with a :: x', b :: d' => g a b :: zip_with g x' d' | _, _ => [] end.
  Definition overlay (g : F -> F -> F) (off : nat) (d data : list F) : option (list F) :=
    if off + length d <=? length data then
      Some (firstn off data ++ zip_with g (firstn (length d) (skipn off data)) d
              ++ skipn (off + length d) data)
    else None.
  (** mod.rs:294-297 / 302-307: loops over the blocks of a cluster *)
  Fixpoint overlay_all (g : F -> F -> F) (cluster_start : nat) (bs : poly) (data : list F)
    : option (list F) :=
    match bs with
    | [] => Some data
    | (s, d) :: bs' =>
        if cluster_start <=? s then          (* usize subtraction *)
          match overlay g (s - cluster_start) d data with
          | Some data' => overlay_all g cluster_start bs' data'
          | None => None
          end
        else None
    end.

  (** mod.rs:259-263 / 264-268: absorb blocks starting at or before the end *)
  Fixpoint absorb (cluster_end : nat) (bs : poly) : poly * nat * poly :=
    match bs with
    | [] => ([], cluster_end, [])
    | (s, d) :: bs' =>
        if s <=? cluster_end then
          let '(t, e, rest) := absorb (Nat.max cluster_end (s + length d)) bs' in
          ((s, d) :: t, e, rest)
        else ([], cluster_end, bs)
    end.
  (** mod.rs:257-272: alternate until nothing is absorbed *)
  Fixpoint cluster (fuel cluster_end : nat) (l r : poly) : poly * poly * nat * poly * poly :=
    match fuel with
    | O => ([], [], cluster_end, l, r)
    | S fuel' =>
        let '(t1, e1, l') := absorb cluster_end l in
        let '(t2, e2, r') := absorb e1 r in
        match t1, t2 with
        | [], [] => ([], [], e2, l', r')
        | _, _ =>
            let '(lt, rt, e, l'', r'') := cluster fuel' e2 l' r' in
            (t1 ++ lt, t2 ++ rt, e, l'', r'')
        end
    end.

  (** mod.rs:246-251 *)
  Definition next_start (l r : poly) : option nat :=
    match l, r with
    | (ls, _) :: _, (rs, _) :: _ => Some (Nat.min ls rs)
    | (ls, _) :: _, [] => Some ls
    | [], (rs, _) :: _ => Some rs
    | [], [] => None
    end.

  (** mod.rs:244-314, the merge loop on the remaining blocks *)
  Fixpoint combine_loop (fuel : nat) (op : F -> F -> F) (l r out : poly) : option poly :=
    match fuel with
    | O => None
    | S fuel' =>
        match next_start l r with
        | None => Some out
        | Some cs =>
            let '(lt, rt, ce, l', r') := cluster (S (length l + length r)) cs l r in
            match rt with
            | [] => combine_loop fuel' op l' r' (out ++ lt)
            | _ =>
                let clen := ce - cs in
                let data :=
                  match lt with
                  | [(s, d)] =>
                      if (s =? cs) && (length d =? clen) then Some d
                      else overlay_all (fun _ x => x) cs lt (repeat f0 clen)
                  | _ => overlay_all (fun _ x => x) cs lt (repeat f0 clen)
                  end in
                match data with
                | None => None
                | Some data =>
                    match overlay_all op cs rt data with
                    | None => None
                    | Some data =>
                        if (cs =? 0) && (clen =? NC)
                        then combine_loop fuel' op l' r' (out ++ [(cs, data)])
                        else combine_loop fuel' op l' r' (extend_runs out cs data)
                    end
                end
            end
        end
    end.

  (** mod.rs:220-318 [combine_assign] *)
  Definition combine_assign (op : F -> F -> F) (p other : poly) : option poly :=
    match other with
    | [] => Some p
    | _ =>
        match p with
        | [] =>
            from_blocks
              (fold_left (fun out b => extend_runs out (fst b)
                            (zip_with op (repeat f0 (length (snd b))) (snd b))) other [])
        | _ =>
            match combine_loop (S (length p + length other)) op p other [] with
            | Some out => from_blocks out
            | None => None
            end
        end
    end.

  (** mod.rs:321-327 [scale] *)
  Definition p_scale (by' : F) (p : poly) : poly :=
    if feqb by' f0 then [] else apply_all (fun x => fmul x by') p.
  (** mod.rs:330-337 [add_assign], [sub_assign] *)
  Definition p_add (p q : poly) : option poly := combine_assign fadd p q.
  Definition p_sub (p q : poly) : option poly := combine_assign fsub p q.
  (** mod.rs:340-342 [negate] *)
  Definition p_negate (p : poly) : poly := apply_all fopp p.

  (** mod.rs:350-356 [fold] *)
  Fixpoint p_fold_from (acc : poly) (polys : list poly) (scale_factor : F) : option poly :=
    match polys with
    | [] => Some acc
    | q :: polys' =>
        match p_add (p_scale scale_factor acc) q with
        | Some acc' => p_fold_from acc' polys' scale_factor
        | None => None
        end
    end.
  Definition p_fold (polys : list poly) (scale_factor : F) : option poly :=
    p_fold_from p_new polys scale_factor.

  (** mod.rs:359-376 [eval]; blocks in reverse order.  The usize subtraction
      [prev_start - (start + len)] cannot underflow on well formed blocks. *)
  Fixpoint p_eval_loop (z : F) (result : F) (prev_start : nat) (rbs : poly) : F :=
    match rbs with
    | [] => if 0 <? prev_start then fmul result (fpow z prev_start) else result
    | (start, data) :: rbs' =>
        let gap := prev_start - (start + length data) in
        let result := if 0 <? gap then fmul result (fpow z gap) else result in
        let result := fold_left (fun res c => fadd (fmul res z) c) (rev data) result in
        p_eval_loop z result start rbs'
    end.
  Definition p_eval (p : poly) (z : F) : F := p_eval_loop z f0 NC (rev p).

  (** mod.rs:380-394 [dilate] *)
  Fixpoint dilate_data (z power : F) (data : list F) : list F * F :=
    match data with
    | [] => ([], power)
    | c :: data' =>
        let '(r, power') := dilate_data z (fmul power z) data' in (fmul c power :: r, power')
    end.
  Fixpoint dilate_loop (z power : F) (prev_end : nat) (bs : poly) : poly :=
    match bs with
    | [] => []
    | (start, data) :: bs' =>
        let gap := start - prev_end in
        let power := if 0 <? gap then fmul power (fpow z gap) else power in
        let '(data', power') := dilate_data z power data in
        (start, data') :: dilate_loop z power' (start + length data) bs'
    end.
  Definition p_dilate (z : F) (p : poly) : poly := dilate_loop z f1 0 p.

  (** mod.rs:426-438, the contribution of one overlap *)
  Fixpoint zip_acc (acc : F) (a b : list F) : F :=
    match a, b with x :: a', y :: b' => zip_acc (fadd acc (fmul x y)) a' b' | _, _ => acc end.
  Definition overlap_sum (result : F) (a b : block) : F :=
    let max_deg := NC - 1 in
    let '(a_start, a_data) := a in
    let '(b_start, b_data) := b in
    let a_end := a_start + length a_data in
    let rev_lo := max_deg + 1 - b_start - length b_data in
    let rev_hi := max_deg + 1 - b_start in
    let overlap_lo := Nat.max a_start rev_lo in
    let overlap_hi := Nat.min a_end rev_hi in
    if overlap_lo <? overlap_hi then
      let a_slice := firstn (overlap_hi - overlap_lo) (skipn (overlap_lo - a_start) a_data) in
      let b_idx_lo := max_deg - (overlap_hi - 1) - b_start in
      let b_idx_hi := max_deg - overlap_lo - b_start in
      let b_slice := firstn (b_idx_hi + 1 - b_idx_lo) (skipn b_idx_lo b_data) in
      zip_acc result a_slice (rev b_slice)
    else result.
  (** mod.rs:411-446, the two-pointer merge; [b] is reversed *)
  Fixpoint revdot_loop (fuel : nat) (result : F) (a b : poly) : F :=
    match fuel with
    | O => result
    | S fuel' =>
        match a, b with
        | ab :: a', bb :: b' =>
            let result := overlap_sum result ab bb in
            let a_end := fst ab + length (snd ab) in
            let rev_hi := (NC - 1) + 1 - fst bb in
            let a'' := if a_end <=? rev_hi then a' else a in
            let b'' := if rev_hi <=? a_end then b' else b in
            revdot_loop fuel' result a'' b''
        | _, _ => result
        end
    end.
  (** mod.rs:402-449 [revdot] *)
  Definition p_revdot (p q : poly) : F := revdot_loop (length p + length q) f0 p (rev q).

  (** mod.rs:455-468 [commit]; [ragu_arithmetic::mul] is represented by its
      specification (theorem C08_msm).  [None]: too few generators. *)
  Fixpoint lincomb {M : FMod F} (cs : list F) (gs : list M) : M :=
    match cs, gs with c :: cs', g :: gs' => madd (mscale c g) (lincomb cs' gs') | _, _ => m0 end.
  Definition p_commit {M : FMod F} (gens : list M) (p : poly) : option M :=
    if NC <=? length gens then
      Some (lincomb (flat_map snd p)
              (flat_map (fun b => firstn (length (snd b)) (skipn (fst b) gens)) p))
    else None.

  (** mod.rs:484-492 [CoeffIter] *)
  Record citer := mk_citer { ci_front : nat; ci_back : nat; ci_fb : nat; ci_bb : nat }.
  (** mod.rs:208-216 [iter_coeffs] *)
  Definition iter_coeffs (bs : poly) : citer := mk_citer 0 NC 0 (length bs).
  (** mod.rs:502-508 *)
  Fixpoint skip_front (fuel : nat) (bs : poly) (front fb : nat) : nat :=
    match fuel with
    | O => fb
    | S fuel' =>
        match nth_error bs fb with
        | None => fb
        | Some (start, data) =>
            if front <? start + length data then fb else skip_front fuel' bs front (fb + 1)
        end
    end.
  (** mod.rs:497-521 [next] *)
  Definition ci_next (bs : poly) (it : citer) : citer * option F :=
    if ci_back it <=? ci_front it then (it, None)
    else
      let fb := skip_front (length bs) bs (ci_front it) (ci_fb it) in
      let val := match nth_error bs fb with
                 | Some (start, data) =>
                     if start <=? ci_front it then nth (ci_front it - start) data f0 else f0
                 | None => f0
                 end in
      (mk_citer (ci_front it + 1) (ci_back it) fb (ci_bb it), Some val).
  (** mod.rs:536-542 *)
  Fixpoint skip_back (bs : poly) (back bb : nat) : nat :=
    match bb with
    | O => O
    | S bb' =>
        match nth_error bs bb' with
        | Some (start, _) => if start <=? back then bb else skip_back bs back bb'
        | None => bb
        end
    end.
  (** mod.rs:530-554 [next_back] *)
  Definition ci_next_back (bs : poly) (it : citer) : citer * option F :=
    if ci_back it <=? ci_front it then (it, None)
    else
      let back := ci_back it - 1 in
      let bb := skip_back bs back (ci_bb it) in
      let val := match bb with
                 | O => f0
                 | S bb' =>
                     match nth_error bs bb' with
                     | Some (start, data) =>
                         if back <? start + length data then nth (back - start) data f0 else f0
                     | None => f0
                     end
                 end in
      (mk_citer (ci_front it) back (ci_fb it) bb, Some val).
  (** mod.rs:523-526 [size_hint] *)
  Definition ci_len (it : citer) : nat := ci_back it - ci_front it.

  (** view.rs:79-109 [Trace::map_to_blocks] *)
  Definition trace_blocks (a b c d : list F) (n : nat) : poly :=
    (if length c =? 0 then [] else [(0, c)])
    ++ (if length b =? 0 then [] else [(2 * n - length b, rev b)])
    ++ (if length a =? 0 then [] else [(2 * n, a)])
    ++ (if length d =? 0 then [] else [(4 * n - length d, rev d)]).
  (** view.rs:111-126 [Wiring::map_to_blocks] *)
  Definition wiring_blocks (a b c d : list F) (n : nat) : poly := trace_blocks b a d c n.

  (** view.rs:192-221 [View::build] for the block map [mtb] *)
  Definition view_build (mtb : list F -> list F -> list F -> list F -> nat -> poly)
             (n : nat) (a b c d : list F) : option poly :=
    if (length a <=? n) && (length b <=? n) && (length c <=? n) && (length d <=? n) then
      from_blocks (fold_left (fun out blk => extend_runs out (fst blk) (snd blk)) (mtb a b c d n) [])
    else None.
  Definition trace_build := view_build trace_blocks.
  Definition wiring_build := view_build wiring_blocks.
End Sparse.
Notation block F := (nat * list (fcar F))%type.
Notation poly F := (list (nat * list (fcar F))).
Arguments from_blocks {F} NC bs. Arguments check_blocks {F} NC i prev_end bs.
Arguments runs_loop {F} base i run_start run zero_count out data.
Arguments extend_runs {F} out base data. Arguments p_new {F}.
Arguments from_coeffs {F} NC coeffs. Arguments p_random {F} NC coeffs.
Arguments apply_all {F} op p. Arguments zip_with {F} g x d. Arguments overlay {F} g off d data.
Arguments overlay_all {F} g cluster_start bs data. Arguments absorb {F} cluster_end bs.
Arguments cluster {F} fuel cluster_end l r. Arguments next_start {F} l r.
Arguments combine_loop {F} NC fuel op l r out. Arguments combine_assign {F} NC op p other.
Arguments p_scale {F} by' p. Arguments p_add {F} NC p q. Arguments p_sub {F} NC p q.
Arguments p_negate {F} p. Arguments p_fold_from {F} NC acc polys scale_factor.
Arguments p_fold {F} NC polys scale_factor. Arguments p_eval_loop {F} z result prev_start rbs.
Arguments p_eval {F} NC p z. Arguments dilate_data {F} z power data.
Arguments dilate_loop {F} z power prev_end bs. Arguments p_dilate {F} z p.
Arguments zip_acc {F} acc a b. Arguments overlap_sum {F} NC result a b.
Arguments revdot_loop {F} NC fuel result a b. Arguments p_revdot {F} NC p q.
Arguments lincomb {F M} cs gs. Arguments p_commit {F} NC {M} gens p.
Arguments iter_coeffs {F} NC bs. Arguments skip_front {F} fuel bs front fb.
Arguments ci_next {F} bs it. Arguments skip_back {F} bs back bb. Arguments ci_next_back {F} bs it.
Arguments trace_blocks {F} a b c d n. Arguments wiring_blocks {F} a b c d n.
Arguments view_build {F} NC mtb n a b c d. Arguments trace_build {F} NC n a b c d.
Arguments wiring_build {F} NC n a b c d.
