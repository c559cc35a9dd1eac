(** Generation of the Pasta parameters, the file written by the build script and
    its reader (crates/ragu_pasta/{pasta_common.rs,build.rs,src/lib.rs}).

    Field elements are their canonical integers; [to_repr] and [from_repr]
    (pasta_curves) are 32 little-endian bytes, refused when not below the
    modulus.  Hash to curve is a parameter.  A panic is [None]. *)
From Coq Require Import List NArith Arith.
Import ListNotations.

(** a byte string of given length holding an integer, least byte first:
    [u32::to_le_bytes], [to_repr] *)
Fixpoint to_le (k : nat) (v : N) : list N :=
  match k with O => [] | S k' => (v mod 256)%N :: to_le k' (v / 256)%N end.
Fixpoint of_le (bytes : list N) : N :=
  match bytes with [] => 0%N | b :: r => (b + 256 * of_le r)%N end.

(** an affine point; [None] is the identity *)
Definition point := option (N * N).
(** a curve: the modulus of its base field and [from_xy] (pasta_curves), which
    refuses pairs off the curve and may have a pair for the identity *)
Record curve := mk_curve { base : N; from_xy : N -> N -> option point }.

(** pasta_common.rs:40-44, the message of generator i: a zero byte and the index
    as u32 *)
Definition message (i : nat) : list N := 0%N :: to_le 4 (N.of_nat i).
(** pasta_common.rs:36-53 [params_for_curve]; [n as u32] truncates, and
    [batch_normalize] panics unless as many points were pushed as there are
    places; normalising does not change a point *)
Definition params_for_curve (hash : list N -> point) (n : nat) : option (list point * point) :=
  let m := N.to_nat (N.of_nat n mod 2 ^ 32) in
  let g := map (fun i => hash (message i)) (seq 0 m) in
  if (length g =? n)%nat then Some (g, hash [1%N]) else None.

(** build.rs:16-24 [write_point] *)
Definition write_point (q : point) : option (list N) :=
  match q with
  | None => None
  | Some (x, y) => Some (to_le 32 x ++ to_le 32 y)
  end.
(** build.rs:26-33 [write_params_for_curve] *)
Fixpoint write_points (g : list point) : option (list N) :=
  match g with
  | [] => Some []
  | q :: r =>
      match write_point q with
      | None => None
      | Some b => match write_points r with None => None | Some bs => Some (b ++ bs) end
      end
  end.
Definition write_curve (g : list point) (h : point) : option (list N) := write_points (g ++ [h]).
(** build.rs:45-47 [main]: Pallas first *)
Definition write_file (pallas vesta : list point * point) : option (list N) :=
  match write_curve (fst pallas) (snd pallas) with
  | None => None
  | Some a => match write_curve (fst vesta) (snd vesta) with None => None | Some b => Some (a ++ b) end
  end.

(** src/lib.rs:128-139 [get_point] and the rest of the source; a short slice, a
    representation out of range and a point off the curve panic *)
Definition get_point (c : curve) (source : list N) : option (point * list N) :=
  if (length source <? 64)%nat then None
  else
    let x := of_le (firstn 32 source) in
    let y := of_le (firstn 32 (skipn 32 source)) in
    if (x <? base c)%N then
      if (y <? base c)%N then
        match from_xy c x y with Some q => Some (q, skipn 64 source) | None => None end
      else None
    else None.
(** src/lib.rs:141-149 [get_points_for_curve] *)
Fixpoint get_points (c : curve) (n : nat) (source : list N) : option (list point * list N) :=
  match n with
  | O => Some ([], source)
  | S n' =>
      match get_point c source with
      | None => None
      | Some (q, s) => match get_points c n' s with None => None | Some (g, s') => Some (q :: g, s') end
      end
  end.
Definition get_curve (c : curve) (n : nat) (source : list N) : option (list point * point * list N) :=
  match get_points c n source with
  | None => None
  | Some (g, s) => match get_point c s with None => None | Some (h, s') => Some (g, h, s') end
  end.
(** src/lib.rs:151-165 [PASTA_PARAMETERS]; nothing may be left *)
Definition read_file (pallas vesta : curve) (np nv : nat) (source : list N)
  : option ((list point * point) * (list point * point)) :=
  match get_curve pallas np source with
  | None => None
  | Some (g, h, s) =>
      match get_curve vesta nv s with
      | None => None
      | Some (g', h', s') => match s' with [] => Some ((g, h), (g', h')) | _ => None end
      end
  end.
