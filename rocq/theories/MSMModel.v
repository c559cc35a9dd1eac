(** Model of the multiexp in [crates/ragu_arithmetic/src/util.rs]. *)
From Coq Require Import List Arith NArith Bool.
From Verif Require Import FFTModel.
Import ListNotations.

(** The curve group, as far as [mul] uses it: a commutative monoid.  Affine and
    projective points are two representations of the same element; the model
    identifies them. *)
Record CMon := mkCMon {
  gcar :> Type;
  gid : gcar;
  gadd : gcar -> gcar -> gcar;
  gadd_comm : forall x y, gadd x y = gadd y x;
  gadd_assoc : forall x y z, gadd x (gadd y z) = gadd (gadd x y) z;
  gadd_id : forall x, gadd gid x = x
}.
Arguments gid {_}. Arguments gadd {_} _ _.

(** util.rs:127-142 [bucket_lookup] *)
Definition ln_thresholds : list N :=
  [4; 4; 32; 55; 149; 404; 1097; 2981; 8104; 22027; 59875; 162755; 442414; 1202605; 3269018]%N.
Fixpoint bucket_go (n : N) (ts : list N) (cur : nat) : nat :=
  match ts with
  | [] => cur
  | t :: ts' => if N.ltb n t then cur else bucket_go n ts' (cur + 1)
  end.
Definition bucket_lookup (n : nat) : nat := bucket_go (N.of_nat n) ln_thresholds 1.

(** [u32::from_le_bytes] on (at most four) bytes; missing bytes are zero as in
    the zero-initialised buffer of util.rs:213 *)
Definition le_value (bytes : list N) : N := fold_right (fun b acc => (b + 256 * acc)%N) 0%N bytes.

(** util.rs:205-224 [get_at]: bits [segment*c, segment*c + c) of a scalar's
    little-endian representation *)
Definition get_at (segment c : nat) (bytes : list N) : N :=
  let skip_bits := segment * c in
  let skip_bytes := skip_bits / 8 in
  if length bytes <=? skip_bytes then 0%N
  else
    let tmp := le_value (firstn 4 (skipn skip_bytes bytes)) in
    let tmp := N.shiftr tmp (N.of_nat (skip_bits - skip_bytes * 8)) in
    N.modulo tmp (2 ^ N.of_nat c).

Section MSM.
  Variable G : CMon.

  (** util.rs:228-233 [enum Bucket] *)
  Inductive bucket := BNone | BAffine (p : G) | BProjective (p : G).
  (** util.rs:236-245 [Bucket::add_assign] *)
  Definition b_add_assign (b : bucket) (o : G) : bucket :=
    match b with
    | BNone => BAffine o
    | BAffine a => BProjective (gadd a o)
    | BProjective a => BProjective (gadd a o)
    end.
  (** util.rs:247-256 [Bucket::add] *)
  Definition b_add (b : bucket) (o : G) : G :=
    match b with
    | BNone => o
    | BAffine a => gadd o a
    | BProjective a => gadd o a
    end.

  (** util.rs:269-274 bucket filling; an index out of range would panic and is
      [None] *)
  Fixpoint fill (seg c : nat) (cs : list (list N)) (bases : list G) (bs : list bucket)
    : option (list bucket) :=
    match cs, bases with
    | co :: cs', p :: bases' =>
        let v := N.to_nat (get_at seg c co) in
        if v =? 0 then fill seg c cs' bases' bs
        else match nth_error bs (v - 1) with
             | Some b => fill seg c cs' bases' (upd bs (v - 1) (b_add_assign b p))
             | None => None
             end
    | _, _ => Some bs
    end.

  (** util.rs:280-285 summation by parts over the reversed buckets *)
  Fixpoint parts (bs : list bucket) (running sum : G) : G :=
    match bs with
    | [] => sum
    | b :: bs' => let running := b_add b running in parts bs' running (gadd sum running)
    end.

  (** util.rs:260-287 [window_sum] *)
  Definition window_sum (seg c : nat) (cs : list (list N)) (bases : list G) : option G :=
    match fill seg c cs bases (repeat BNone (2 ^ c - 1)) with
    | Some bs => Some (parts (rev bs) gid gid)
    | None => None
    end.

  (** util.rs:298-300: c doublings *)
  Fixpoint double_n (c : nat) (acc : G) : G :=
    match c with O => acc | S c' => double_n c' (gadd acc acc) end.

  (** util.rs:290-294: all window sums.  [into_par_iter().map().collect()] keeps
      index order, each window reads shared data only. *)
  Fixpoint window_sums (segs : list nat) (c : nat) cs bases : option (list G) :=
    match segs with
    | [] => Some []
    | s :: segs' =>
        match window_sum s c cs bases, window_sums segs' c cs bases with
        | Some w, Some ws => Some (w :: ws)
        | _, _ => None
        end
    end.

  (** util.rs:297-302 *)
  Definition combine_windows (c : nat) (ws : list G) : G :=
    fold_left (fun acc s => gadd (double_n c acc) s) (rev ws) gid.

  (** util.rs:188-304 [mul].  Scalars are given by their canonical little-endian
      representation ([to_repr]); [num_bits] is [F::NUM_BITS]. *)
  Definition msm (num_bits : nat) (cs : list (list N)) (bases : list G) : option G :=
    let c := bucket_lookup (length cs) in
    let segments := (num_bits + c - 1) / c in
    match window_sums (seq 0 segments) c cs bases with
    | Some ws => Some (combine_windows c ws)
    | None => None
    end.
End MSM.
Arguments msm {G} num_bits cs bases. Arguments window_sum {G} seg c cs bases.
Arguments window_sums {G} segs c cs bases. Arguments combine_windows {G} c ws.
Arguments fill {G} seg c cs bases bs. Arguments parts {G} bs running sum.
Arguments double_n {G} c acc. Arguments b_add {G} b o. Arguments b_add_assign {G} b o.
Arguments BNone {G}. Arguments BAffine {G} p. Arguments BProjective {G} p.
