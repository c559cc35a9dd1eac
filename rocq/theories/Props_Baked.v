(** C73: the baked parameters are the generated ones. *)
From Coq Require Import List NArith ZArith Arith Bool Lia.
From Verif Require Import BakedModel Pasta.
Import ListNotations.
Local Open Scope nat_scope.

(** a point of the curve other than the identity *)
Definition valid (c : curve) (q : point) : Prop :=
  exists x y, q = Some (x, y) /\ (x < base c)%N /\ (y < base c)%N /\ from_xy c x y = Some q.
(** [from_xy] makes a point of the given coordinates or the identity *)
Definition faithful (c : curve) : Prop := forall x y x' y', from_xy c x y = Some (Some (x', y')) -> x' = x /\ y' = y.
Definition is_bytes (l : list N) : Prop := Forall (fun b => (b < 256)%N) l.

Lemma to_le_length k : forall v, length (to_le k v) = k.
Proof. induction k; intros v; cbn; [reflexivity|]. now rewrite IHk. Qed.
Lemma to_le_bytes k : forall v, is_bytes (to_le k v).
Proof. induction k; intros v; constructor; [apply N.mod_lt; discriminate|apply IHk]. Qed.
Lemma of_to_le k : forall v, (v < 256 ^ N.of_nat k)%N -> of_le (to_le k v) = v.
Proof.
  induction k; intros v H.
  - cbn in *. lia.
  - cbn [to_le of_le]. rewrite IHk.
    + rewrite (N.div_mod v 256) at 3 by discriminate. lia.
    + rewrite Nat2N.inj_succ, N.pow_succ_r in H by lia. apply N.div_lt_upper_bound; [discriminate|exact H].
Qed.
Lemma to_of_le : forall l, is_bytes l -> to_le (length l) (of_le l) = l.
Proof.
  induction l as [|b r IH]; intros H; [reflexivity|]. inversion H as [|? ? Hb Hr]; subst. cbn [length to_le of_le].
  replace ((b + 256 * of_le r) mod 256)%N with b.
  2:{ rewrite N.mul_comm, N.mod_add by discriminate. symmetry. now apply N.mod_small. }
  replace ((b + 256 * of_le r) / 256)%N with (of_le r); [now rewrite IH|].
  rewrite N.mul_comm, N.div_add by discriminate. rewrite N.div_small by exact Hb. reflexivity.
Qed.
Lemma to_le_inj k v v' : (v < 256 ^ N.of_nat k)%N -> (v' < 256 ^ N.of_nat k)%N -> to_le k v = to_le k v' -> v = v'.
Proof. intros H H' E. rewrite <- (of_to_le k v H), <- (of_to_le k v' H'). now rewrite E. Qed.

Section Curve.
  Variable c : curve.
  Hypothesis small : (base c <= 256 ^ 32)%N.
  Lemma get_write_point q : valid c q ->
    exists b, write_point q = Some b /\ is_bytes b /\ forall s, get_point c (b ++ s) = Some (q, s).
  Proof.
    intros (x & y & -> & Hx & Hy & O). eexists. split; [reflexivity|]. split.
    - apply Forall_app. split; apply to_le_bytes.
    - intros s. unfold get_point. rewrite !app_length, !to_le_length.
      destruct (Nat.ltb_spec (32 + 32 + length s) 64); [lia|].
      assert (F1 : firstn 32 ((to_le 32 x ++ to_le 32 y) ++ s) = to_le 32 x).
      { rewrite <- app_assoc, firstn_app, to_le_length. rewrite firstn_all2 by (rewrite to_le_length; lia).
        cbn [Nat.sub firstn]. apply app_nil_r. }
      assert (F2 : skipn 32 ((to_le 32 x ++ to_le 32 y) ++ s) = to_le 32 y ++ s).
      { rewrite <- app_assoc, skipn_app, to_le_length. rewrite skipn_all2 by (rewrite to_le_length; lia). reflexivity. }
      assert (F3 : skipn 64 ((to_le 32 x ++ to_le 32 y) ++ s) = s).
      { rewrite skipn_app, app_length, !to_le_length. rewrite skipn_all2 by (rewrite app_length, !to_le_length; lia). reflexivity. }
      rewrite F1, F2, F3. rewrite firstn_app, to_le_length.
      rewrite firstn_all2 by (rewrite to_le_length; lia). change (firstn (32 - 32) s) with (@nil N). rewrite app_nil_r.
      rewrite !of_to_le by (eapply N.lt_le_trans; [eassumption|exact small]).
      destruct (N.ltb_spec x (base c)); [|lia]. destruct (N.ltb_spec y (base c)); [|lia]. rewrite O. reflexivity.
  Qed.
  Lemma get_write_points : forall g, Forall (valid c) g ->
    exists b, write_points g = Some b /\ is_bytes b /\ forall s, get_points c (length g) (b ++ s) = Some (g, s).
  Proof.
    induction g as [|q r IH]; intros H.
    - exists []. repeat split. constructor.
    - inversion H as [|? ? Hq Hr]; subst. destruct (IH Hr) as (b & E & B & G).
      destruct (get_write_point q Hq) as (b0 & E0 & B0 & G0). exists (b0 ++ b). cbn [write_points length get_points].
      rewrite E0, E. split; [reflexivity|]. split; [apply Forall_app; split; assumption|].
      intros s. rewrite <- app_assoc, G0, G. reflexivity.
  Qed.
  Lemma write_points_app : forall g g',
    write_points (g ++ g') = match write_points g, write_points g' with Some a, Some b => Some (a ++ b) | _, _ => None end.
  Proof.
    induction g as [|q r IH]; intros g'; cbn [app write_points].
    - destruct (write_points g'); reflexivity.
    - destruct (write_point q); [|reflexivity]. rewrite IH. destruct (write_points r), (write_points g'); try reflexivity.
      now rewrite app_assoc.
  Qed.
  Lemma get_write_curve g h : Forall (valid c) g -> valid c h ->
    exists b, write_curve g h = Some b /\ is_bytes b /\ forall s, get_curve c (length g) (b ++ s) = Some (g, h, s).
  Proof.
    intros Hg Hh. destruct (get_write_points g Hg) as (b & E & B & G). destruct (get_write_point h Hh) as (b0 & E0 & B0 & G0).
    exists (b ++ b0). unfold write_curve. rewrite write_points_app, E. cbn [write_points]. rewrite E0, app_nil_r.
    split; [reflexivity|]. split; [apply Forall_app; split; assumption|].
    intros s. unfold get_curve. rewrite <- app_assoc, G, G0. reflexivity.
  Qed.
End Curve.

Section Read.
  Variable c : curve.
  Hypothesis faith : faithful c.
  Lemma get_point_inv s q s' : is_bytes s -> q <> None -> get_point c s = Some (q, s') ->
    valid c q /\ is_bytes s' /\ exists b, write_point q = Some b /\ s = b ++ s'.
  Proof.
    intros B Hq E. unfold get_point in E. destruct (Nat.ltb_spec (length s) 64) as [|L]; [discriminate|].
    destruct (N.ltb_spec (of_le (firstn 32 s)) (base c)) as [Hx|]; [|discriminate].
    destruct (N.ltb_spec (of_le (firstn 32 (skipn 32 s))) (base c)) as [Hy|]; [|discriminate].
    destruct (from_xy c _ _) as [[[x y]|]|] eqn:O; [| |discriminate]; [|congruence].
    pose proof (faith _ _ _ _ O) as [-> ->].
    assert (q = Some (of_le (firstn 32 s), of_le (firstn 32 (skipn 32 s)))) by congruence.
    assert (s' = skipn 64 s) by congruence. clear E Hq. subst q s'.
    assert (Bp : forall l, is_bytes l -> forall k, is_bytes (firstn k l) /\ is_bytes (skipn k l)).
    { intros l Hl k. unfold is_bytes in *. rewrite <- (firstn_skipn k l) in Hl. apply Forall_app in Hl. exact Hl. }
    split; [eexists _, _; repeat split; eassumption|]. split; [apply Bp, B|].
    eexists. split; [reflexivity|].
    pose proof (to_of_le (firstn 32 s) (proj1 (Bp s B 32))) as R1.
    pose proof (to_of_le (firstn 32 (skipn 32 s)) (proj1 (Bp _ (proj2 (Bp s B 32)) 32))) as R2.
    rewrite firstn_length_le in R1 by lia. rewrite firstn_length_le in R2 by (rewrite skipn_length; lia).
    rewrite R1, R2. rewrite <- app_assoc.
    assert (K : forall k (l : list N) j, skipn j (skipn k l) = skipn (k + j) l).
    { induction k; intros [|b l] j; try reflexivity; [apply skipn_nil|apply IHk]. }
    pose proof (firstn_skipn 32 (skipn 32 s)) as R3. rewrite K in R3. change (32 + 32) with 64 in R3.
    rewrite R3, firstn_skipn. reflexivity.
  Qed.
  Lemma get_points_inv : forall n s g s', is_bytes s -> ~ In None g -> get_points c n s = Some (g, s') ->
    length g = n /\ Forall (valid c) g /\ is_bytes s' /\ exists b, write_points g = Some b /\ s = b ++ s'.
  Proof.
    induction n; intros s g s' B Ng E; cbn [get_points] in E.
    - injection E as <- <-. repeat split; auto. exists []. split; reflexivity.
    - destruct (get_point c s) as [[q s1]|] eqn:E1; [|discriminate].
      destruct (get_points c n s1) as [[g1 s2]|] eqn:E2; [|discriminate]. injection E as <- <-.
      destruct (get_point_inv s q s1 B ltac:(intros ->; apply Ng; now left) E1) as (V & B1 & b & W & ->).
      destruct (IHn s1 g1 s2 B1 ltac:(intros Hn; apply Ng; now right) E2) as (L & V' & B2 & b' & W' & ->).
      split; [cbn; now rewrite L|]. split; [constructor; assumption|]. split; [exact B2|].
      exists (b ++ b'). cbn [write_points]. rewrite W, W'. split; [reflexivity|]. now rewrite app_assoc.
  Qed.
  Lemma get_curve_inv n s g h s' : is_bytes s -> ~ In None (h :: g) -> get_curve c n s = Some (g, h, s') ->
    length g = n /\ Forall (valid c) g /\ valid c h /\ is_bytes s' /\ exists b, write_curve g h = Some b /\ s = b ++ s'.
  Proof.
    intros B Nn E. unfold get_curve in E. destruct (get_points c n s) as [[g1 s1]|] eqn:E1; [|discriminate].
    destruct (get_point c s1) as [[h1 s2]|] eqn:E2; [|discriminate]. injection E as <- <- <-.
    destruct (get_points_inv n s g1 s1 B ltac:(intros Hn; apply Nn; now right) E1) as (L & V & B1 & b & W & ->).
    destruct (get_point_inv s1 h1 s2 B1 ltac:(intros ->; apply Nn; now left) E2) as (V' & B2 & b' & W' & ->).
    repeat split; auto. exists (b ++ b'). unfold write_curve. rewrite write_points_app, W. cbn [write_points].
    rewrite W', app_nil_r. split; [reflexivity|]. now rewrite app_assoc.
  Qed.
End Read.

(** What the build script writes the library reads back, point for point and
    with nothing left over. *)
Theorem C73_round_trip : forall cp cv gp hp gv hv,
  (base cp <= 256 ^ 32)%N -> (base cv <= 256 ^ 32)%N ->
  Forall (valid cp) gp -> valid cp hp -> Forall (valid cv) gv -> valid cv hv ->
  exists file, write_file (gp, hp) (gv, hv) = Some file /\ is_bytes file /\
    read_file cp cv (length gp) (length gv) file = Some ((gp, hp), (gv, hv)).
Proof.
  intros cp cv gp hp gv hv Sp Sv Gp Hp Gv Hv.
  destruct (get_write_curve cp Sp gp hp Gp Hp) as (a & A & Ba & Ra).
  destruct (get_write_curve cv Sv gv hv Gv Hv) as (b & B & Bb & Rb).
  exists (a ++ b). unfold write_file. cbn [fst snd]. rewrite A, B. split; [reflexivity|].
  split; [apply Forall_app; split; assumption|].
  unfold read_file. rewrite Ra. rewrite <- (app_nil_r b) at 1. rewrite Rb. reflexivity.
Qed.
Print Assumptions C73_round_trip.

(** A file is read without an identity only if it is the one the build script
    writes for the parameters read; these are points of the curves, of the asked numbers. *)
Theorem C73_only : forall cp cv np nv file p v, faithful cp -> faithful cv -> is_bytes file ->
  ~ In None (snd p :: fst p) -> ~ In None (snd v :: fst v) ->
  read_file cp cv np nv file = Some (p, v) ->
  write_file p v = Some file /\ length (fst p) = np /\ length (fst v) = nv /\
  Forall (valid cp) (snd p :: fst p) /\ Forall (valid cv) (snd v :: fst v).
Proof.
  intros cp cv np nv file p v Fp Fv B Np Nv E. unfold read_file in E.
  destruct (get_curve cp np file) as [[[g h] s]|] eqn:E1; [|discriminate].
  destruct (get_curve cv nv s) as [[[g' h'] s']|] eqn:E2; [|discriminate].
  destruct s'; [|discriminate]. injection E as <- <-.
  destruct (get_curve_inv cp Fp np file g h s B Np E1) as (L & V & Vh & B1 & b & W & ->).
  destruct (get_curve_inv cv Fv nv s g' h' [] B1 Nv E2) as (L' & V' & Vh' & _ & b' & W' & ->).
  rewrite app_nil_r. unfold write_file. cbn [fst snd]. rewrite W, W'. repeat split; auto.
Qed.
Print Assumptions C73_only.

(** Writing fails exactly when some parameter is the identity. *)
Theorem C73_identity : forall p v,
  write_file p v = None <-> In None (fst p ++ [snd p] ++ fst v ++ [snd v]).
Proof.
  assert (W : forall g, write_points g = None <-> In None g).
  { induction g as [|q r IH]; cbn [write_points In]; [split; [discriminate|tauto]|].
    destruct q as [[x y]|]; cbn [write_point]; [|tauto].
    destruct (write_points r); split; intros H; try discriminate; try reflexivity.
    - destruct H as [H|H]; [discriminate|]. apply IH in H. discriminate.
    - right. now apply IH. }
  intros [gp hp] [gv hv]. unfold write_file, write_curve. cbn [fst snd].
  replace (gp ++ [hp] ++ gv ++ [hv]) with ((gp ++ [hp]) ++ gv ++ [hv]) by (rewrite <- app_assoc; reflexivity).
  rewrite in_app_iff, <- !W.
  destruct (write_points (gp ++ [hp])); [|tauto]. destruct (write_points (gv ++ [hv])); [|tauto].
  split; [discriminate|]. intros [H|H]; discriminate.
Qed.
Print Assumptions C73_identity.

(** Fewer than 2^32 generators are the hashes of pairwise different messages of five
    bytes, none of them the message of the blinding generator; for more the
    generation panics. *)
Theorem C73_messages : forall (hash : list N -> point) n,
  ((N.of_nat n < 2 ^ 32)%N ->
   exists g, params_for_curve hash n = Some (g, hash [1%N]) /\
   length g = n /\ forall i, i < n -> nth_error g i = Some (hash (message i))) /\
  ((2 ^ 32 <= N.of_nat n)%N -> params_for_curve hash n = None) /\
  (forall i, length (message i) = 5 /\ is_bytes (message i) /\ message i <> [1%N]) /\
  (forall i j, (N.of_nat i < 2 ^ 32)%N -> (N.of_nat j < 2 ^ 32)%N -> message i = message j -> i = j).
Proof.
  intros hash n. unfold params_for_curve. rewrite map_length, seq_length. split; [|split; [|split]].
  - intros H. rewrite N.mod_small by exact H. rewrite Nat2N.id, Nat.eqb_refl. eexists. split; [reflexivity|].
    rewrite map_length, seq_length. split; [reflexivity|].
    intros i Hi. rewrite nth_error_map. rewrite (nth_error_nth' _ 0) by (rewrite seq_length; exact Hi).
    rewrite seq_nth by exact Hi. reflexivity.
  - intros H. pose proof (N.mod_lt (N.of_nat n) (2 ^ 32) ltac:(discriminate)).
    destruct (Nat.eqb_spec (N.to_nat (N.of_nat n mod 2 ^ 32)) n); [lia|reflexivity].
  - intros i. unfold message. cbn [length]. rewrite to_le_length. split; [reflexivity|]. split; [|discriminate].
    constructor; [reflexivity|apply to_le_bytes].
  - intros i j Hi Hj E. unfold message in E.
    assert (E' : to_le 4 (N.of_nat i) = to_le 4 (N.of_nat j)) by exact (f_equal (@tl N) E).
    apply Nat2N.inj. apply (to_le_inj 4); assumption.
Qed.
Print Assumptions C73_messages.

(** The library reads what was generated: for points hashed to the curves, none
    the identity, the file written from the generated parameters is read as
    these parameters. *)
Theorem C73_baked : forall cp cv hashp hashv np nv,
  (base cp <= 256 ^ 32)%N -> (base cv <= 256 ^ 32)%N ->
  (N.of_nat np < 2 ^ 32)%N -> (N.of_nat nv < 2 ^ 32)%N ->
  (forall m, valid cp (hashp m)) -> (forall m, valid cv (hashv m)) ->
  exists p v file, params_for_curve hashp np = Some p /\ params_for_curve hashv nv = Some v /\
    write_file p v = Some file /\ read_file cp cv np nv file = Some (p, v).
Proof.
  intros cp cv hashp hashv np nv Sp Sv Lp Lv Vp Vv.
  destruct (proj1 (C73_messages hashp np) Lp) as (gp & Ep & Np & Ip).
  destruct (proj1 (C73_messages hashv nv) Lv) as (gv & Ev & Nv & Iv).
  assert (All : forall c hash n g, (forall m, valid c (hash m)) -> length g = n ->
    (forall i, i < n -> nth_error g i = Some (hash (message i))) -> Forall (valid c) g).
  { intros c hash n g V L I. apply Forall_forall. intros q Hq. destruct (In_nth_error g q Hq) as [i Hi].
    assert (i < n) by (rewrite <- L; apply nth_error_Some; congruence).
    rewrite I in Hi by assumption. injection Hi as <-. apply V. }
  destruct (C73_round_trip cp cv gp (hashp [1%N]) gv (hashv [1%N]) Sp Sv (All _ _ _ _ Vp Np Ip) (Vp _)
              (All _ _ _ _ Vv Nv Iv) (Vv _)) as (file & W & _ & R).
  rewrite Np, Nv in R. exists (gp, hashp [1%N]), (gv, hashv [1%N]), file. repeat split; assumption.
Qed.
Print Assumptions C73_baked.

(** the two Pasta base fields fit 32 bytes; two points of y^2 = x^3 + 5 over
    each, written and read back; a
    changed byte, a missing byte and a surplus byte are refused *)
Definition ex_curve (p : Z) : curve :=
  mk_curve (Z.to_N p) (fun x y =>
    if (x =? 0)%N && (y =? 0)%N then Some None
    else if ((y * y) mod Z.to_N p =? (x * x * x + 5) mod Z.to_N p)%N then Some (Some (x, y)) else None).
Definition ex_neg (p : Z) (v : N) : N := (Z.to_N p - v)%N.
Example C73_ex :
  let cp := ex_curve p_pallas in let cv := ex_curve q_vesta in
  let gp := [Some (ex_neg p_pallas 1, 2%N)] in let hp := Some (ex_neg p_pallas 1, ex_neg p_pallas 2) in
  let gv := [Some (ex_neg q_vesta 1, ex_neg q_vesta 2); Some (ex_neg q_vesta 1, 2%N)] in let hv := Some (ex_neg q_vesta 1, 2%N) in
  ((base cp <? 256 ^ 32) = true /\ (base cv <? 256 ^ 32) = true)%N /\
  match write_file (gp, hp) (gv, hv) with
  | None => False
  | Some file =>
      length file = 320 /\ read_file cp cv 1 2 file = Some ((gp, hp), (gv, hv)) /\
      read_file cp cv 1 2 (1%N :: tl file) = None /\ read_file cp cv 1 2 (removelast file) = None /\
      read_file cp cv 1 2 (file ++ [0%N]) = None
  end /\ write_file (None :: gp, hp) (gv, hv) = None /\
  message 258 = [0; 2; 1; 0; 0]%N.
Proof. vm_compute. repeat split; reflexivity. Qed.
Lemma ex_faithful p : faithful (ex_curve p).
Proof.
  intros x y x' y' H. cbn [from_xy ex_curve] in H. destruct (_ && _); [discriminate|].
  destruct (_ =? _)%N; [|discriminate]. injection H as <- <-. split; reflexivity.
Qed.
(** both curves accept the point used for every message above *)
Example C73_ex_valid : valid (ex_curve p_pallas) (Some (ex_neg p_pallas 1, 2%N)) /\
  valid (ex_curve q_vesta) (Some (ex_neg q_vesta 1, 2%N)).
Proof. split; eexists _, _; (split; [reflexivity|]); vm_compute; repeat split; reflexivity. Qed.
(** with a curve that takes the zero pair for the identity, a file of zeros is
    read although nothing writes it: the proviso of [C73_only] is needed *)
Example C73_ex_zeros :
  read_file (ex_curve p_pallas) (ex_curve q_vesta) 1 0 (repeat 0%N 192) = Some (([None], None), ([], None)) /\
  write_file ([None], None) ([], None) = None.
Proof. vm_compute. split; reflexivity. Qed.
