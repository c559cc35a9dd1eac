(** Gadget programs: the calls a gadget makes on its driver
    (crates/ragu_core/src/drivers.rs, crates/ragu_primitives/src).

    A gadget is generic over its driver; the model is the tree of driver calls it
    makes, generic in the wire type [W] (so a program can only pass wires around
    and put them in linear combinations).  [DriverValue<D, T>] is [option T]:
    [None] for drivers without witness data ([MaybeKind = Empty]), [Some] for
    drivers with it ([Always]); [D::just] maps over it.  [Err] and panics are
    [GErr].  A routine call is the inlined body ([Driver::routine], drivers.rs:
    339-346; segmentation into scopes is the subject of CircModel.v). *)
From Coq Require Import List Arith NArith Bool.
From Verif Require Import FieldDef ArithModel ArithSpec.
Import ListNotations.

Inductive G (F : Field) (W A : Type) :=
| GRet (a : A)
| GErr
(** drivers.rs:144-160 [DriverTypes::gate]; witness values a, b, c, d *)
| GGate (w : option (F * F * F * F)) (k : W -> W -> W -> W -> G F W A)
(** drivers.rs:244-247 [Driver::alloc] *)
| GAlloc (w : option F) (k : W -> G F W A)
(** drivers.rs:301 [Driver::add] *)
| GAdd (lc : list (lcall F W)) (k : W -> G F W A)
(** drivers.rs:315 [Driver::enforce_zero] *)
| GEnf (lc : list (lcall F W)) (k : G F W A).
Arguments GRet {F W A}. Arguments GErr {F W A}. Arguments GGate {F W A}. Arguments GAlloc {F W A}.
Arguments GAdd {F W A}. Arguments GEnf {F W A}.

Fixpoint gbind {F : Field} {W A B : Type} (p : G F W A) (f : A -> G F W B) : G F W B :=
  match p with
  | GRet a => f a
  | GErr => GErr
  | GGate w k => GGate w (fun a b c d => gbind (k a b c d) f)
  | GAlloc w k => GAlloc w (fun a => gbind (k a) f)
  | GAdd lc k => GAdd lc (fun a => gbind (k a) f)
  | GEnf lc k => GEnf lc (gbind k f)
  end.
Declare Scope g_scope.
Delimit Scope g_scope with g.
Notation "x <- p ;; q" := (gbind p (fun x => q)) (at level 61, p at next level, right associativity) : g_scope.
Notation "p ;;; q" := (gbind p (fun _ => q)) (at level 61, right associativity) : g_scope.
Open Scope g_scope.

(** [D::just] over available values *)
Definition lift1 {A B : Type} (f : A -> B) (x : option A) : option B := option_map f x.
Definition lift2 {A B C : Type} (f : A -> B -> C) (x : option A) (y : option B) : option C :=
  match x, y with Some a, Some b => Some (f a b) | _, _ => None end.
(** [D::try_just(f)?]: with witness data [f] may fail, without it is not run *)
Definition try_just {F : Field} {W A B : Type} (x : option A) (f : A -> option B) : G F W (option B) :=
  match x with
  | None => GRet None
  | Some a => match f a with Some b => GRet (Some b) | None => GErr end
  end.

Section Gadgets.
  Variable F : Field.
  Variable W : Type.
  Variable one : W. (* Driver::ONE *)
  Local Notation G := (G F W).
  Local Notation lc := (list (lcall F W)).

  Definition g_add (l : lc) : G W := GAdd l GRet.
  Definition g_enforce (l : lc) : G unit := GEnf l (GRet tt).
  (** drivers.rs:250-252 [constant] (default method) *)
  Definition g_constant (v : Coeff F) : G W := g_add [LTerm one v].
  (** drivers.rs:274-283 [mul] (default method): the d wire is dropped *)
  Definition g_mul (w : option (F * F * F)) : G (W * W * W) :=
    GGate (lift1 (fun t => (t, f0)) w) (fun a b c _ => GRet (a, b, c)).
  (** drivers.rs:318-320 [enforce_equal] *)
  Definition g_equal (a b : W) : G unit := g_enforce [LAdd a; LSub b].

  (** ** Element (element.rs) *)
  (** element.rs:53-61 *)
  Record elem := mk_elem { ew : W; ev : option F }.
  (** element.rs:67-74 [alloc] *)
  Definition e_alloc (v : option F) : G elem := GAlloc v (fun w => GRet (mk_elem w v)).
  (** element.rs:80-102 [alloc_square] *)
  Definition e_alloc_square (v : option F) : G (elem * elem) :=
    let square := lift1 (fun x => fmul x x) v in
    t <- g_mul (lift1 (fun x => (x, x, fmul x x)) v) ;;
    let '(a, b, c) := t in
    g_equal a b ;;;
    GRet (mk_elem a v, mk_elem c square).
  (** element.rs:105-110 [one].  [wit] says whether the driver carries values *)
  Definition e_one (wit : bool) : elem := mk_elem one (if wit then Some f1 else None).
  (** element.rs:113-118 [zero] *)
  Definition e_zero (wit : bool) : G elem :=
    w <- g_constant CZero ;; GRet (mk_elem w (if wit then Some f0 else None)).
  (** element.rs:121-126 [constant] *)
  Definition e_constant (wit : bool) (v : F) : G elem :=
    w <- g_constant (CArb v) ;; GRet (mk_elem w (if wit then Some v else None)).
  (** element.rs:148-169 [mul] *)
  Definition e_mul (x y : elem) : G elem :=
    t <- g_mul (lift2 (fun a b => (a, b, fmul a b)) (ev x) (ev y)) ;;
    let '(a, b, c) := t in
    g_equal a (ew x) ;;; g_equal b (ew y) ;;;
    GRet (mk_elem c (lift2 fmul (ev x) (ev y))).
  (** element.rs:172-174 [square] *)
  Definition e_square (x : elem) : G elem := e_mul x x.
  (** element.rs:177-179 [enforce_zero] *)
  Definition e_enforce_zero (x : elem) : G unit := g_enforce [LAdd (ew x)].
  (** element.rs:187-197 [add] *)
  Definition e_add (x y : elem) : G elem :=
    w <- g_add [LAdd (ew x); LAdd (ew y)] ;; GRet (mk_elem w (lift2 fadd (ev x) (ev y))).
  (** element.rs:200-210 [sub] *)
  Definition e_sub (x y : elem) : G elem :=
    w <- g_add [LAdd (ew x); LSub (ew y)] ;; GRet (mk_elem w (lift2 fsub (ev x) (ev y))).
  (** element.rs:213-219 [add_coeff] *)
  Definition e_add_coeff (x y : elem) (c : Coeff F) : G elem :=
    w <- g_add [LAdd (ew x); LTerm (ew y) c] ;;
    GRet (mk_elem w (lift2 (fun a b => fadd a (c_value (c_mul (CArb b) c))) (ev x) (ev y))).
  (** element.rs:222-226 [scale] *)
  Definition e_scale (x : elem) (c : Coeff F) : G elem :=
    w <- g_add [LTerm (ew x) c] ;; GRet (mk_elem w (lift1 (fun a => c_value (c_mul (CArb a) c)) (ev x))).
  (** element.rs:182-184 [negate] *)
  Definition e_negate (x : elem) : G elem := e_scale x CNegOne.
  (** element.rs:229-231 [double] *)
  Definition e_double (x : elem) : G elem := e_add x x.
  (** element.rs:250-266 [invert_with] *)
  Definition e_invert_with (x : elem) (inverse : option F) : G elem :=
    t <- g_mul (lift2 (fun a b => (a, b, f1)) (ev x) inverse) ;;
    let '(a, b, c) := t in
    g_equal a (ew x) ;;; g_equal c one ;;;
    GRet (mk_elem b inverse).
  Definition inv_opt (v : F) : option F := if feqb v f0 then None else Some (finv v).
  (** element.rs:236-246 [invert] *)
  Definition e_invert (x : elem) : G elem :=
    inverse <- try_just (ev x) inv_opt ;; e_invert_with x inverse.
  (** element.rs:276-304 [div_nonzero] *)
  Definition e_div_nonzero (x by_ : elem) : G elem :=
    q <- try_just (lift2 pair (ev x) (ev by_)) (fun p : F * F => option_map (fmul (fst p)) (inv_opt (snd p))) ;;
    t <- g_mul (match q, ev x, ev by_ with Some a, Some c, Some b => Some (a, b, c) | _, _, _ => None end) ;;
    let '(quotient, denominator, numerator) := t in
    g_equal (ew x) numerator ;;; g_equal (ew by_) denominator ;;;
    GRet (mk_elem quotient q).
  (** element.rs:323-336 [fold] *)
  Fixpoint e_fold_go (acc : elem) (es : list elem) (s : elem) : G elem :=
    match es with
    | [] => GRet acc
    | e :: r => scaled <- e_mul acc s ;; acc' <- e_add scaled e ;; e_fold_go acc' r s
    end.
  Definition e_fold (wit : bool) (es : list elem) (s : elem) : G elem :=
    match es with [] => e_zero wit | e :: r => e_fold_go e r s end.
  (** element.rs:339-351 [enforce_root_of_unity] *)
  Fixpoint e_squarings (k : nat) (x : elem) : G elem :=
    match k with O => GRet x | S k' => x' <- e_square x ;; e_squarings k' x' end.
  Definition e_root_of_unity (wit : bool) (x : elem) (k : nat) : G unit :=
    v <- e_squarings k x ;; d <- e_sub v (e_one wit) ;; e_enforce_zero d.
  (** element.rs:354-361 [sum] *)
  Fixpoint e_sum_go (acc : elem) (es : list elem) : G elem :=
    match es with [] => GRet acc | e :: r => acc' <- e_add acc e ;; e_sum_go acc' r end.
  Definition e_sum (wit : bool) (es : list elem) : G elem := z <- e_zero wit ;; e_sum_go z es.
  (** element.rs:408-431 [multiadd]; the length assertion is [GErr] *)
  Definition e_multiadd (wit : bool) (values : list elem) (coeffs : list F) : G elem :=
    if Nat.eqb (length values) (length coeffs) then
      w <- g_add (map (fun vc => LTerm (ew (fst vc)) (CArb (snd vc))) (combine values coeffs)) ;;
      GRet (mk_elem w (fold_left (fun s vc => lift2 (fun s v => fadd s (fmul v (snd vc))) s (ev (fst vc)))
                                 (combine values coeffs) (if wit then Some f0 else None)))
    else GErr.

  (** ** Boolean (boolean.rs) *)
  (** boolean.rs:29-37 *)
  Record bool_g := mk_bool { bw : W; bv : option bool }.
  (** util.rs [fe]/[coeff] *)
  Definition fe (b : bool) : F := if b then f1 else f0.
  (** boolean.rs:43-58 [alloc] *)
  Definition b_alloc (v : option bool) : G bool_g :=
    t <- g_mul (lift1 (fun b => (fe b, fe b, fe b)) v) ;;
    let '(a, b, c) := t in
    g_equal a b ;;; g_equal a c ;;;
    GRet (mk_bool c v).
  (** boolean.rs:61-67 [not] *)
  Definition b_not (x : bool_g) : G bool_g :=
    w <- g_add [LAdd one; LSub (bw x)] ;; GRet (mk_bool w (lift1 negb (bv x))).
  (** boolean.rs:70-86 [and] *)
  Definition b_and (x y : bool_g) : G bool_g :=
    let r := lift2 andb (bv x) (bv y) in
    t <- g_mul (match bv x, bv y, r with Some a, Some b, Some c => Some (fe a, fe b, fe c) | _, _, _ => None end) ;;
    let '(a, b, c) := t in
    g_equal a (bw x) ;;; g_equal b (bw y) ;;;
    GRet (mk_bool c r).
  (** boolean.rs:134-136 [element] *)
  Definition b_elem (x : bool_g) : elem := mk_elem (bw x) (lift1 fe (bv x)).
  (** boolean.rs:92-103 [conditional_select] *)
  Definition b_select (cond : bool_g) (a b : elem) : G elem :=
    diff <- e_sub b a ;; m <- e_mul (b_elem cond) diff ;; e_add a m.
  (** boolean.rs:108-121 [conditional_enforce_equal] *)
  Definition b_cond_equal (cond : bool_g) (a b : elem) : G unit :=
    diff <- e_sub a b ;; m <- e_mul (b_elem cond) diff ;; e_enforce_zero m.
  (** boolean.rs:142-189 [is_zero] *)
  Definition e_is_zero (x : elem) : G bool_g :=
    let isz := lift1 (fun v => feqb v f0) (ev x) in
    t <- g_mul (lift2 (fun v z => (v, fe z, f0)) (ev x) isz) ;;
    let '(x_wire, is_zero_wire, zero_product) := t in
    g_equal x_wire (ew x) ;;; g_enforce [LAdd zero_product] ;;;
    t2 <- g_mul (lift2 (fun v z => (v, if feqb v f0 then f0 else finv v, fe (negb z))) (ev x) isz) ;;
    let '(x_wire2, _, is_not_zero) := t2 in
    g_equal x_wire2 (ew x) ;;;
    g_enforce [LAdd is_not_zero; LSub one; LAdd is_zero_wire] ;;;
    GRet (mk_bool is_zero_wire isz).
  (** element.rs:312-315 [is_equal] *)
  Definition e_is_equal (x y : elem) : G bool_g := d <- e_sub x y ;; e_is_zero d.
  (** boolean.rs:218-249 [multipack]; [cap] is [F::CAPACITY] *)
  Definition pack_lc (chunk : list bool_g) : lc := flat_map (fun b => [LAdd (bw b); LGain CTwo]) chunk.
  Fixpoint pack_value (chunk : list bool_g) (value gain : option F) : option F :=
    match chunk with
    | [] => value
    | b :: r => pack_value r (match value, gain, bv b with
                              | Some v, Some g, Some x => Some (if x then fadd v g else v)
                              | _, _, _ => None end)
                           (lift1 (fun g => fadd g g) gain)
    end.
  Definition b_pack (wit : bool) (chunk : list bool_g) : G elem :=
    w <- g_add (pack_lc chunk) ;;
    GRet (mk_elem w (pack_value chunk (if wit then Some f0 else None) (if wit then Some f1 else None))).
  (** [slice::chunks]; [fuel] bounds the recursion, [None] (GErr) is the panic on
      a zero chunk size *)
  Fixpoint b_multipack_go (fuel : nat) (wit : bool) (cap : nat) (bits : list bool_g) : G (list elem) :=
    match bits, fuel with
    | [], _ => GRet []
    | _, O => GErr
    | _, S fuel' =>
        e <- b_pack wit (firstn cap bits) ;;
        r <- b_multipack_go fuel' wit cap (skipn cap bits) ;; GRet (e :: r)
    end.
  Definition b_multipack (wit : bool) (cap : nat) (bits : list bool_g) : G (list elem) :=
    if Nat.eqb cap 0 then GErr else b_multipack_go (length bits) wit cap bits.

  (** ** Point (point.rs), curve y^2 = x^3 + cb, endomorphism (x,y) -> (zeta x, y) *)
  Section Points.
    Variables (cb zeta : F).
    (** point.rs:26-33 *)
    Record point := mk_point { px : elem; py : elem }.
    (** point.rs:51-72 [alloc]; a witnessed point is [None] at infinity *)
    Definition p_alloc (p : option (option (F * F))) : G point :=
      co <- try_just p (fun q => q) ;;
      xx2 <- e_alloc_square (lift1 fst co) ;;
      let '(x, x2) := xx2 in
      x3 <- e_mul x x2 ;;
      yy2 <- e_alloc_square (lift1 snd co) ;;
      let '(y, y2) := yy2 in
      g_enforce [LAdd (ew x3); LTerm one (CArb cb); LSub (ew y2)] ;;;
      GRet (mk_point x y).
    (** point.rs:75-86 [constant] *)
    Definition p_constant (wit : bool) (p : option (F * F)) : G point :=
      match p with
      | Some (x, y) => ex <- e_constant wit x ;; ey <- e_constant wit y ;; GRet (mk_point ex ey)
      | None => GErr
      end.
    (** point.rs:98-101 [endo] *)
    Definition p_endo (p : point) : G point := x <- e_scale (px p) (CArb zeta) ;; GRet (mk_point x (py p)).
    (** point.rs:104-110 [negate] *)
    Definition p_negate (p : point) : G point := y <- e_negate (py p) ;; GRet (mk_point (px p) y).
    (** point.rs:113-117 [conditional_endo] *)
    Definition p_cond_endo (p : point) (c : bool_g) : G point :=
      ex <- e_scale (px p) (CArb zeta) ;; x <- b_select c (px p) ex ;; GRet (mk_point x (py p)).
    (** point.rs:120-124 [conditional_negate] *)
    Definition p_cond_negate (p : point) (c : bool_g) : G point :=
      ny <- e_negate (py p) ;; y <- b_select c (py p) ny ;; GRet (mk_point (px p) y).
    (** point.rs:128-147 [double] *)
    Definition p_double (p : point) : G point :=
      dy <- e_double (py p) ;;
      x2 <- e_square (px p) ;;
      x2' <- e_scale x2 (CArb (fadd f1 (fadd f1 f1))) ;;
      delta <- e_div_nonzero x2' dy ;;
      dx <- e_double (px p) ;;
      d2 <- e_square delta ;;
      x3 <- e_sub d2 dx ;;
      xs <- e_sub (px p) x3 ;;
      m <- e_mul delta xs ;;
      y3 <- e_sub m (py p) ;;
      GRet (mk_point x3 y3).
    (** point.rs:156-183 [add_incomplete]; the updated accumulator is returned *)
    Definition p_add_incomplete (p q : point) (nonzero : option elem) : G (point * option elem) :=
      tmp <- e_sub (px q) (px p) ;;
      nz <- match nonzero with None => GRet None | Some e => e' <- e_mul e tmp ;; GRet (Some e') end ;;
      dy <- e_sub (py q) (py p) ;;
      delta <- e_div_nonzero dy tmp ;;
      d2 <- e_square delta ;; t1 <- e_sub d2 (px p) ;; x3 <- e_sub t1 (px q) ;;
      tmp2 <- e_sub (px p) x3 ;;
      m <- e_mul delta tmp2 ;; y3 <- e_sub m (py p) ;;
      GRet (mk_point x3 y3, nz).
    (** point.rs:186-212 [double_and_add_incomplete] *)
    Definition p_double_and_add (p q : point) : G point :=
      tmp <- e_sub (px q) (px p) ;;
      dy <- e_sub (py q) (py p) ;;
      l1 <- e_div_nonzero dy tmp ;;
      l12 <- e_square l1 ;; t1 <- e_sub l12 (px p) ;; x_r <- e_sub t1 (px q) ;;
      tmp2 <- e_sub (px p) x_r ;;
      dyp <- e_double (py p) ;; t2 <- e_div_nonzero dyp tmp2 ;; l2 <- e_sub t2 l1 ;;
      l22 <- e_square l2 ;; t3 <- e_sub l22 x_r ;; x_s <- e_sub t3 (px p) ;;
      tmp3 <- e_sub (px p) x_s ;;
      m <- e_mul l2 tmp3 ;; y_s <- e_sub m (py p) ;;
      GRet (mk_point x_s y_s).

    (** ** Endoscalar (endoscalar.rs); [nbits] is [Uendo::BITS] = 136 *)
    Variable nbits : nat.
    (** endoscalar.rs:35-42: demoted bits (wires only) and the integer value *)
    Record endo := mk_endo { en_bits : list W; en_value : option N }.
    (** endoscalar.rs:66-75 [bits] *)
    Definition en_bools (e : endo) : list bool_g :=
      map (fun iw => mk_bool (snd iw) (lift1 (fun v => N.testbit v (N.of_nat (fst iw))) (en_value e)))
          (combine (seq 0 (length (en_bits e))) (en_bits e)).
    (** endoscalar.rs:47-63 [alloc] *)
    Fixpoint en_alloc_go (is : list nat) (v : option N) : G (list W) :=
      match is with
      | [] => GRet []
      | i :: r => b <- b_alloc (lift1 (fun v => N.testbit v (N.of_nat i)) v) ;;
                  t <- en_alloc_go r v ;; GRet (bw b :: t)
      end.
    Definition en_alloc (v : option N) : G endo := bs <- en_alloc_go (seq 0 nbits) v ;; GRet (mk_endo bs v).
    (** endoscalar.rs:78-147 [extract]; [gen] is MULTIPLICATIVE_GENERATOR,
        [fsqrt] is [Field::sqrt]; the [expect] is [GErr] *)
    Variables (gen : F) (fsqrt : F -> option F).
    Definition extract_wit (constant : F) (v : F) : option (F * bool) :=
      let value := fadd v constant in
      match fsqrt value with
      | Some s => Some (s, true)
      | None => match fsqrt (fmul value gen) with Some s => Some (s, false) | None => None end
      end.
    Fixpoint en_extract_go (is : list nat) (elem_ : elem) (bits : list W) (value : option N)
             (constant coeff_0 coeff_1 : F) : G endo :=
      let coeff_2 := gen in
      let coeff_3 := fsub f1 gen in
      match is with
      | [] => GRet (mk_endo bits value)
      | i :: r =>
          sb <- try_just (ev elem_) (extract_wit constant) ;;
          let value' := lift2 (fun v (sb : F * bool) => if snd sb then N.setbit v (N.of_nat i) else v) value sb in
          bit <- b_alloc (lift1 snd sb) ;;
          sq <- e_alloc_square (lift1 fst sb) ;;
          let '(_, square) := sq in
          vb <- e_mul elem_ (b_elem bit) ;;
          g_enforce [LTerm one (CArb coeff_0); LTerm (bw bit) (CArb coeff_1); LTerm (ew elem_) (CArb coeff_2);
                     LTerm (ew vb) (CArb coeff_3); LSub (ew square)] ;;;
          en_extract_go r elem_ (bits ++ [bw bit]) value' (fadd constant f1)
                        (fadd coeff_0 coeff_2) (fadd coeff_1 coeff_3)
      end.
    Definition en_extract (wit : bool) (e : elem) : G endo :=
      en_extract_go (seq 0 nbits) e [] (if wit then Some 0%N else None) f0 f0 f0.
    (** endoscalar.rs:150-171 [group_scale] *)
    Fixpoint en_scale_go (bits : list bool_g) (p acc : point) : G point :=
      match bits with
      | nb :: eb :: r =>
          q1 <- p_cond_negate p nb ;; q <- p_cond_endo q1 eb ;;
          acc' <- p_double_and_add acc q ;; en_scale_go r p acc'
      | _ => GRet acc
      end.
    Definition en_group_scale (e : endo) (p : point) : G point :=
      ep <- p_endo p ;; s <- p_add_incomplete ep p None ;; acc <- p_double (fst s) ;;
      en_scale_go (en_bools e) p acc.
    (** endoscalar.rs:173-210 [lift] *)
    Fixpoint en_lift_go (bits : list bool_g) (acc : elem) (constant_term : F) : G (elem * F) :=
      match bits with
      | n :: e :: r =>
          ne <- b_and n e ;;
          acc <- e_double acc ;;
          let constant_term := fadd (fadd constant_term constant_term) f1 in
          n' <- e_scale (b_elem n) (CArb (fopp (fadd f1 f1))) ;;
          e' <- e_scale (b_elem e) (CArb (fsub zeta f1)) ;;
          ne' <- e_scale (b_elem ne) (CArb (fadd (fsub f1 zeta) (fsub f1 zeta))) ;;
          acc <- e_add acc n' ;; acc <- e_add acc e' ;; acc <- e_add acc ne' ;;
          en_lift_go r acc constant_term
      | _ => GRet (acc, constant_term)
      end.
    Definition en_lift (wit : bool) (e : endo) : G elem :=
      z <- e_zero wit ;;
      r <- en_lift_go (en_bools e) z (fadd (fadd zeta f1) (fadd zeta f1)) ;;
      tmp <- e_constant wit (snd r) ;; e_add (fst r) tmp.
    (** endoscalar.rs:217-234 [lift_endoscalar] (native) *)
    Definition lift_step (endo : N) (acc : F) (i : nat) : F :=
      let bits := N.shiftr endo (N.of_nat (2 * i)) in
      let tmp := f1 in
      let tmp := if negb (N.eqb (N.land bits 1) 0) then fopp tmp else tmp in
      let tmp := if negb (N.eqb (N.land bits 2) 0) then fmul tmp zeta else tmp in
      fadd (fadd acc acc) tmp.
    Definition lift_native (endo : N) : F :=
      fold_left (lift_step endo) (seq 0 (nbits / 2)) (fadd (fadd zeta f1) (fadd zeta f1)).
  End Points.

  (** ** routine t(x,z) (crates/ragu_circuits/src/polynomials/txz.rs) *)
  (** txz.rs:36-84 [Evaluate::execute]; [k] is log2 n *)
  Fixpoint g_txz_loop (k : nat) (l r xz_step xzinv_step : elem) : G (elem * elem) :=
    match k with
    | O => GRet (l, r)
    | S k' =>
        l_mul <- e_mul l xz_step ;; l <- e_add l l_mul ;;
        r_mul <- e_mul r xzinv_step ;; r <- e_add r r_mul ;;
        xz_step <- e_square xz_step ;; xzinv_step <- e_square xzinv_step ;;
        g_txz_loop k' l r xz_step xzinv_step
    end.
  Definition g_txz_execute (k : nat) (x z : elem) (aux : option (F * F)) : G elem :=
    xn <- e_squarings k x ;; x2n <- e_square xn ;; x4n <- e_square x2n ;;
    zn <- e_squarings k z ;; z2n <- e_square zn ;;
    x_inv <- e_invert_with x (lift1 fst aux) ;;
    z_inv <- e_invert_with z (lift1 snd aux) ;;
    x4n_minus_1 <- e_mul x4n x_inv ;;
    l <- e_mul x4n_minus_1 z2n ;;
    xz_step <- e_mul x_inv z ;; xzinv_step <- e_mul x_inv z_inv ;;
    lr <- g_txz_loop k l l xz_step xzinv_step ;;
    r_zinv <- e_mul (snd lr) z_inv ;;
    sum <- e_add (fst lr) r_zinv ;;
    e_negate sum.
  (** txz.rs:86-137 [Evaluate::predict] *)
  Fixpoint g_txz_predict_loop (k : nat) (l r xz_step xz_inv_step : F) : F * F :=
    match k with
    | O => (l, r)
    | S k' => g_txz_predict_loop k' (fadd l (fmul l xz_step)) (fadd r (fmul r xz_inv_step))
                               (fmul xz_step xz_step) (fmul xz_inv_step xz_inv_step)
    end.
  Definition g_txz_predict_value (k : nat) (x z x_inv z_inv : F) : F :=
    let n := 2 ^ k in
    let l := fmul (fpow x (4 * n - 1)) (fpow z (2 * n)) in
    let '(l, r) := g_txz_predict_loop k l l (fmul x_inv z) (fmul x_inv z_inv) in
    fopp (fadd l (fmul r z_inv)).
  Definition g_txz_predict (k : nat) (x z : elem) : G (elem * option (F * F)) :=
    aux <- try_just (lift2 pair (ev x) (ev z)) (fun p : F * F =>
             match inv_opt (fst p), inv_opt (snd p) with Some a, Some b => Some (a, b) | _, _ => None end) ;;
    out <- e_alloc (match ev x, ev z, aux with
                    | Some x, Some z, Some (x_inv, z_inv) => Some (g_txz_predict_value k x z x_inv z_inv)
                    | _, _, _ => None end) ;;
    GRet (out, aux).
End Gadgets.

(** ** The Simulator driver (simulator.rs): wires are field elements *)
Record simst := mk_simst { num_allocations : nat; num_gates : nat; num_constraints : nat }.
(** simulator.rs:83-163; [None] is [Err] *)
Fixpoint simulate {F : Field} {A : Type} (p : G F F A) (s : simst) : option (A * simst) :=
  match p with
  | GRet a => Some (a, s)
  | GErr => None
  | GGate None _ => None
  | GGate (Some (a, b, c, d)) k =>
      if negb (feqb (fmul a b) c) then None
      else if negb (feqb (fmul c d) f0) then None
      else simulate (k a b c d) (mk_simst (num_allocations s) (S (num_gates s)) (num_constraints s))
  | GAlloc None _ => None
  | GAlloc (Some v) k => simulate (k v) (mk_simst (S (num_allocations s)) (num_gates s) (num_constraints s))
  | GAdd lc k => simulate (k (ds_value (lin_run ds_add_term ds_do_gain lc ds_default))) s
  | GEnf lc k =>
      if negb (feqb (ds_value (lin_run ds_add_term ds_do_gain lc ds_default)) f0) then None
      else simulate k (mk_simst (num_allocations s) (num_gates s) (S (num_constraints s)))
  end.
