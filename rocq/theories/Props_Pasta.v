(** C59: the constants of the Pasta instantiation. *)
From Coq Require Import List Arith NArith ZArith Znumtheory Bool Lia Ring Field.
From Verif Require Import FieldDef GF PrimeCert Pasta ArithModel FFTModel RegModel GadgetModel GadgetSpec SpongeModel SpongeSpec EndoSpec Props_Sponge PastaSpec PastaModel PastaProofs PastaProofs2 KeyProofs.
Import ListNotations.
Local Open Scope nat_scope.

(** the literal macro accepts exactly the integers below 2^256, and gives their four
    64-bit digits *)
Theorem C59_repr256 : forall n ds, repr256 n = Some ds <-> length ds = 4 /\ Forall is_digit ds /\ digits_value ds = n.
Proof. exact repr256_spec. Qed.
Print Assumptions C59_repr256.
Example C59_repr256_ex : repr256 (2 ^ 256) = None /\ repr256 (5 + 7 * 2 ^ 192) = Some [5; 0; 0; 7]%N.
Proof. split; vm_compute; reflexivity. Qed.

(** ** what is computed once: the checks of the tables *)
Definition small (p : Z) (t : list (list N)) : bool := forallb (forallb (fun x => Z.of_N x <? p)%Z) t.
Definition zs (t : list (list N)) : list (list Z) := map (map Z.of_N) t.
(** the inverse matrix *)
Definition fp_inverse : list (list Z) := [
  [0x2b1a43c0229c7088cec87f2d8726c8af0bffc2b820db9c8da72c6a0170b0282c%Z;
   0x2d4795663fabb438096f1dbb5e52afe1359e9e3c646d4c2d200432500e2c79b3%Z;
   0x30849bd8413653c3df85e596ac94e62dfa88700c4dbb5d2cd0eb3046ab737dab%Z;
   0x32dc94e217b34301bf67420c93a9cb7d662e516897f030555c0be1e6e65b9a98%Z;
   0x26f6aeb66aa8d26c4cf14b3dc6665be3758284b425e38a1d8ca3d940b31f65c2%Z];
  [0x37b07b7f173be752e94e181adb900a697e5518f158adf54fbe98e3ea0bdee3fc%Z;
   0x247d32c1b0de28f1c8ad6b21bf8b2e1055f0130ea2c6c7a59ed71dd9c6f18325%Z;
   0xcd9ead9bc6ca2eed6713aad1c6a3658427f0ae99d3273d2d1203da49ee62930%Z;
   0x3aeca4294ac337d5319cac3bfbe62a81ca9883c7ed834e5d4b7e8fee13ec206e%Z;
   0x2a4fbadd953d44b0572b1ccf94c902fbbb064264acbf4c59628fed7fc63b75c3%Z];
  [0x32fa338a6f1dda396965f3d33fb1a6e00c0320f8ba7fad0c33d025ee922f0568%Z;
   0x23838158ed993d79516b58b9295e0e3da7aaf605a35b34486453ce8ddd057ed8%Z;
   0x2f50d2ded11c4422835aff79a1a62b92b7f6d165b97ff5f908dc6b0d0870a927%Z;
   0x3009fe844221a1a373cc38ea007bca8b4296d66aac6385df8641256ebbec8ef5%Z;
   0x26c24f4f94b20d9efb4d44e4fb5d962ae050c95deb76fc63591f9ed6d5bcf91%Z];
  [0x23eb41564a720bf98a51f24f6dc69613b12d36e8cbdfd8a9f7676fd6251d1d5a%Z;
   0xb033039094cf04c0c9a468b871e36abe0d9b3b4691409fb3b9b0b04e8dc6888%Z;
   0x1b1480b55686c3567e53021e9c75dea02d61320e2853044310342b846fb7c7cf%Z;
   0x8bb212d25b42ebeffa0c620769cfdcdcd14886f17889265538a565241174cfd%Z;
   0x10badd9b224f4bb145b85ad6c2a381811cc141a3a255843a379c3edd30a235c1%Z];
  [0x39a651b4358ff3defbe6e6be62da492a4cf406f843b806c14dfdab96bd55113f%Z;
   0x29ee4fac236d825ec8bb2c1a03819cfb05972ec8bc3f44039fc1fbb179b60f49%Z;
   0xe20eba03c0259e763c49a96d79d51d5f0e5c0ace0a28f0351aae379e6690d62%Z;
   0x26cbb9fdba53ee40c2c4ceb6852e00500eb5b948c7c87319412a55f7a4df88bc%Z;
   0x1c74f2eb8c954941f07bb8d012cebc9c9eb546fbea015d1b85b10782c93b2c0c%Z]].
(** the inverse matrix *)
Definition fq_inverse : list (list Z) := [
  [0x195907aa13673b9e8d10a469ad0f7a28ce62f7dc12c8965fb2e08d550126cc2e%Z;
   0x2c32e689864b700fbb0a39443bc86fffd235f39069c33ec09559c9b30285ba77%Z;
   0x161a2ae4cab3666393f4b036eb66d29d3f0fcce83fc50cbd9b98c0889a71f13e%Z;
   0x2c40fe77d24be1abe72cf7f604ca8d2d4850b54f2c5f2031eab9851a4f782630%Z;
   0x31eb496842c007b20971913b8f78e6cf2a7a8c32b78e9eb148fc3827890c1b63%Z];
  [0x135524f23e2574c51c4e1fd0133b5471e45cde6507165b8d7005e2d6ed82301d%Z;
   0x3a3dea801a0485c939d9f0c71e455cec172e20d3b1ce75cc683ce43dfa5cdb90%Z;
   0x20519a5ecca5d6b8a4315137c85a6a112f688cb803f6e6b8797c4377f92189d4%Z;
   0x119b4cb6f147cf2d9c51e4685e958090800a874378f58c5554b10ec68c2c235e%Z;
   0x2bcbe9ea8bd46ad252d5d29623d905305060615c76f709ee4a2b4d9ce52c9f8f%Z];
  [0x3f6a61cf994078bdc5567944c498428b9dd8e26ab4b5f47593315958000e9bbe%Z;
   0x11f7347357ba87fb6e284861a23500bc5adc0ae27bcee472a08be5d4a59ada5b%Z;
   0x334339b1738c2d239b69328bd9ac00fafcf401cf16ef303b5d7b2b6e8b50fcb1%Z;
   0x234e024058fd8888214c1007bdd5d58e798bbf9ecb9d3a627a377e3e996fc863%Z;
   0x36eae6453067b01582485e14c15136d3fdb16538fc59639d1f5fb23abb2a905f%Z];
  [0x30dbceefda971a30f0cb61b89f26c350100b6812082a7471fcbf791911241888%Z;
   0x103c1742ab59188141a3bfb56f35088dd4859a02f776e95b4a117544213ec058%Z;
   0x28b4d458032a684f8a0faab0db74ea7479ae53350db5a1fa86726c836078db07%Z;
   0x1ba02d27ddff41fa8bdac115652500cd55fee5952d011d3a6db6236b73da6f2f%Z;
   0x445cdd91413c53fe4ed1da16f37dc0ad14e54dc3f5d8a2c97e8d6fb4ce34fb1%Z];
  [0x2d1788a8bfa08a7b8d1e8de71fcbdbe8823785fb3be5fc6aaf8794c2d12e64f5%Z;
   0x4e95943792179bfbbad5c3f633512188edabf9beb6a514e3871b7d5cc6bb0bc%Z;
   0x14013285005220be0460ae8fcd5c16a4253b00f664b0654122b06b52bd1eef8e%Z;
   0xa27804404cb9f362445511417f05e52ffb8ac689257ed7cfeb53ed737e63fd1%Z;
   0x23d942c4ff7c4a15e5d35a1164e4ade91203af001312285db2e57c48f6c6f02c%Z]].

Lemma lit_value (p : Z) x : (Z.of_N x <? p)%Z = true -> (p <= 2 ^ 256)%Z -> match repr256 x with Some ds => raw_value ds = Z.of_N x | None => False end.
Proof.
  intros L B. apply Z.ltb_lt in L. destruct (repr256 x) as [ds|] eqn:E.
  - apply repr256_spec in E. destruct E as (_ & _ & <-). apply raw_value_digits.
  - set (ds := map (fun i => (N.shiftr x (64 * N.of_nat i) mod 2 ^ 64)%N) [0; 1; 2; 3]).
    assert (S : repr256 x = Some ds); [|congruence]. apply repr256_spec. split; [reflexivity|]. split.
    + apply Forall_forall. intros d Hd. apply in_map_iff in Hd. destruct Hd as (i & <- & _). apply N.mod_lt. discriminate.
    + unfold ds. cbn [map digits_value]. rewrite !N.shiftr_div_pow2. change (64 * N.of_nat 0)%N with 0%N. change (64 * N.of_nat 1)%N with 64%N. change (64 * N.of_nat 2)%N with (64 + 64)%N. change (64 * N.of_nat 3)%N with (64 + 64 + 64)%N.
      rewrite !N.pow_add_r, N.pow_0_r, N.div_1_r. set (b := (2 ^ 64)%N) in *. assert (Nb : b <> 0%N) by discriminate.
      rewrite <- !N.div_div by (try apply N.neq_mul_0; auto).
      assert (X : (x < b * b * b * b)%N) by (apply N2Z.inj_lt; apply Z.lt_le_trans with (1 := L); etransitivity; [exact B|]; vm_compute; discriminate).
      assert (S3 : (x / b / b / b < b)%N) by (apply N.div_lt_upper_bound; auto; apply N.div_lt_upper_bound; auto; apply N.div_lt_upper_bound; auto; lia).
      rewrite (N.mod_small (x / b / b / b)) by exact S3. clearbody b.
      rewrite N.mul_0_r, N.add_0_r. rewrite (N.add_comm _ (b * (x / b / b / b))), <- (N.div_mod (x / b / b)) by auto.
      rewrite (N.add_comm _ (b * (x / b / b))), <- (N.div_mod (x / b)) by auto. rewrite (N.add_comm _ (b * (x / b))), <- (N.div_mod x) by auto. reflexivity.
Qed.
Lemma pallas_bound : (p_pallas <= 2 ^ 256)%Z. Proof. vm_compute. discriminate. Qed.
Lemma vesta_bound : (q_vesta <= 2 ^ 256)%Z. Proof. vm_compute. discriminate. Qed.

(** ** Fp *)
Lemma fp_small : small p_pallas fp_ROUND_CONSTANTS = true /\ small p_pallas fp_MDS_MATRIX = true.
Proof. split; vm_compute; reflexivity. Qed.
Lemma fp_val x : (Z.of_N x <? p_pallas)%Z = true -> fp x = lFp (Z.of_N x).
Proof. intros L. pose proof (lit_value p_pallas x L pallas_bound) as V. unfold fp. destruct (repr256 x); [now rewrite V|elim V]. Qed.
Lemma fp_table t : small p_pallas t = true -> map (map fp) t = map (map lFp) (zs t).
Proof.
  intros S. unfold zs. rewrite map_map. apply map_ext_in. intros r Hr. rewrite map_map. apply map_ext_in. intros x Hx. apply fp_val.
  unfold small in S. rewrite forallb_forall in S. specialize (S r Hr). rewrite forallb_forall in S. exact (S x Hx).
Qed.
Lemma fp_regular : regular p_pallas red_pallas 5 (zs fp_MDS_MATRIX) = true.
Proof. vm_compute. reflexivity. Qed.
Lemma fp_inverse_ok : inverse_check p_pallas 5 (zs fp_MDS_MATRIX) fp_inverse = true /\ inverse_check p_pallas 5 fp_inverse (zs fp_MDS_MATRIX) = true.
Proof. split; vm_compute; reflexivity. Qed.
Definition fp_h : Z := 3369993333393829974333376885877453834209946971612698481878577354870.
Definition fp_root : Z := 0x2bce74deac30ebda362120830561f81aea322bf2b7bb7584bdad6fabd87ea32f.
Lemma fp_group : Z.to_nat (p_pallas - 1) = (2 * Z.to_nat fp_h + 1) * 2 ^ 32.
Proof. apply nat_split; [discriminate|vm_compute; reflexivity]. Qed.
Lemma fp_gen : fpow (lFp 5) (2 * Z.to_nat fp_h + 1) = lFp fp_root.
Proof.
  assert (E : (2 * Z.to_nat fp_h + 1)%nat = Z.to_nat (2 * fp_h + 1)) by (unfold fp_h; rewrite Z2Nat.inj_add, Z2Nat.inj_mul by lia; reflexivity).
  rewrite E. apply (pow_z p_pallas good_pallas red_pallas red_pallas_ok); [reflexivity|vm_compute; reflexivity].
Qed.
Lemma fp_order : fpow (lFp fp_root) (2 ^ 31) = fopp (f1 : Fp).
Proof.
  assert (E : fopp (f1 : Fp) = lFp (-1)) by (symmetry; exact (inj_opp p_pallas good_pallas 1)). rewrite E. rewrite <- nat_pow2.
  apply (pow_z p_pallas good_pallas red_pallas red_pallas_ok); [reflexivity|vm_compute; reflexivity].
Qed.
Lemma fp_two : fadd (f1 : Fp) f1 <> f0.
Proof. intros E. apply (f_equal vFp) in E. revert E. vm_compute. discriminate. Qed.
Lemma fp_fifth : (5 * Z.to_nat 23158417847463239084714197001737581570690445185553248572763741411479974104269 = 1 + 4 * Z.to_nat (p_pallas - 1))%nat.
Proof. unfold p_pallas. lia. Qed.
Definition fp_key_root : Z := 0x3b402c2cbd0a0660626f1948867533cfd2a80abd33d0e808075a3efc92d52d2.
Lemma fp_key_order : fpow (lFp fp_key_root) (2 ^ 12) = fopp (f1 : Fp).
Proof.
  assert (E : fopp (f1 : Fp) = lFp (-1)) by (symmetry; exact (inj_opp p_pallas good_pallas 1)). rewrite E. rewrite <- nat_pow2.
  apply (pow_z p_pallas good_pallas red_pallas red_pallas_ok); [reflexivity|vm_compute; reflexivity].
Qed.
Lemma fp_keys : keys_check (Z.to_N p_pallas) (2 ^ 12) (mkrows (Z.to_N p_pallas) 6 43 (Z.to_N fp_key_root)) = true.
Proof. vm_compute. reflexivity. Qed.
(* 32 is the two-adicity of the field, and the root of unity that of pasta_curves *)
Lemma fp_order' : fpow (lFp fp_root) (2 ^ (32 - 1)) = fopp (f1 : Fp). Proof. exact fp_order. Qed.
Lemma fp_half : fmul two (lFp 14474011154664524427946373126085988481681528240970780357977338382174983815169) = (f1 : Fp). Proof. apply gf_ext. vm_compute. reflexivity. Qed.
Lemma fp_root_inv : fmul (lFp fp_root) (lFp 20278381027301128054966451283949098903157062660188087428315625391740337164790) = (f1 : Fp). Proof. apply gf_ext. vm_compute. reflexivity. Qed.
Lemma fp_S : 1 <= 32. Proof. lia. Qed.
Definition TAFp : TwoAdic Fp := mkTwoAdic Fp 32 (lFp fp_root) (lFp 20278381027301128054966451283949098903157062660188087428315625391740337164790) (lFp 14474011154664524427946373126085988481681528240970780357977338382174983815169) fp_S fp_order' fp_root_inv fp_half.
Definition fp_zeta : Fp := lFp 0x12ccca834acdba712caad5dc57aab1b01d1f8bd237ad31491dad5ebdfdfe4ab9.
Lemma fp_zeta_ok : fadd (fadd (fmul fp_zeta fp_zeta) fp_zeta) f1 = f0.
Proof. apply gf_ext. vm_compute. reflexivity. Qed.
Lemma fp_third : (Z.to_nat (p_pallas - 1) = 3 * Z.to_nat 9649340769776349618630915417390658987787685493980520238651558921449989210112)%nat.
Proof. unfold p_pallas. lia. Qed.
Lemma fp_noncube : fpow (lFp (-5)) (Z.to_nat 9649340769776349618630915417390658987787685493980520238651558921449989210112) <> f1.
Proof.
  intros E. assert (Q : fpow (lFp (-5)) (Z.to_nat 9649340769776349618630915417390658987787685493980520238651558921449989210112) = lFp 20444556541222657078399132219657928148671392403212669005631716460534733845831) by (apply (pow_z p_pallas good_pallas red_pallas red_pallas_ok); [reflexivity|vm_compute; reflexivity]).
  rewrite E in Q. apply (f_equal vFp) in Q. revert Q. vm_compute. discriminate.
Qed.

(** ** Fq *)
Lemma fq_small : small q_vesta fq_ROUND_CONSTANTS = true /\ small q_vesta fq_MDS_MATRIX = true.
Proof. split; vm_compute; reflexivity. Qed.
Lemma fq_val x : (Z.of_N x <? q_vesta)%Z = true -> fq x = lFq (Z.of_N x).
Proof. intros L. pose proof (lit_value q_vesta x L vesta_bound) as V. unfold fq. destruct (repr256 x); [now rewrite V|elim V]. Qed.
Lemma fq_table t : small q_vesta t = true -> map (map fq) t = map (map lFq) (zs t).
Proof.
  intros S. unfold zs. rewrite map_map. apply map_ext_in. intros r Hr. rewrite map_map. apply map_ext_in. intros x Hx. apply fq_val.
  unfold small in S. rewrite forallb_forall in S. specialize (S r Hr). rewrite forallb_forall in S. exact (S x Hx).
Qed.
Lemma fq_regular : regular q_vesta red_vesta 5 (zs fq_MDS_MATRIX) = true.
Proof. vm_compute. reflexivity. Qed.
Lemma fq_inverse_ok : inverse_check q_vesta 5 (zs fq_MDS_MATRIX) fq_inverse = true /\ inverse_check q_vesta 5 fq_inverse (zs fq_MDS_MATRIX) = true.
Proof. split; vm_compute; reflexivity. Qed.
Definition fq_h : Z := 3369993333393829974333376885877453834209946971612708570864021632400.
Definition fq_root : Z := 0x2de6a9b8746d3f589e5c4dfd492ae26e9bb97ea3c106f049a70e2c1102b6d05f.
Lemma fq_group : Z.to_nat (q_vesta - 1) = (2 * Z.to_nat fq_h + 1) * 2 ^ 32.
Proof. apply nat_split; [discriminate|vm_compute; reflexivity]. Qed.
Lemma fq_gen : fpow (lFq 5) (2 * Z.to_nat fq_h + 1) = lFq fq_root.
Proof.
  assert (E : (2 * Z.to_nat fq_h + 1)%nat = Z.to_nat (2 * fq_h + 1)) by (unfold fq_h; rewrite Z2Nat.inj_add, Z2Nat.inj_mul by lia; reflexivity).
  rewrite E. apply (pow_z q_vesta good_vesta red_vesta red_vesta_ok); [reflexivity|vm_compute; reflexivity].
Qed.
Lemma fq_order : fpow (lFq fq_root) (2 ^ 31) = fopp (f1 : Fq).
Proof.
  assert (E : fopp (f1 : Fq) = lFq (-1)) by (symmetry; exact (inj_opp q_vesta good_vesta 1)). rewrite E. rewrite <- nat_pow2.
  apply (pow_z q_vesta good_vesta red_vesta red_vesta_ok); [reflexivity|vm_compute; reflexivity].
Qed.
Lemma fq_two : fadd (f1 : Fq) f1 <> f0.
Proof. intros E. apply (f_equal vFq) in E. revert E. vm_compute. discriminate. Qed.
Lemma fq_fifth : (5 * Z.to_nat 23158417847463239084714197001737581570690445185553317903743794198714690358477 = 1 + 4 * Z.to_nat (q_vesta - 1))%nat.
Proof. unfold q_vesta. lia. Qed.
Definition fq_key_root : Z := 0xc4f5749d933a822edb1d70943daf2379fa2a51688418060e615350f17ecbd27.
Lemma fq_key_order : fpow (lFq fq_key_root) (2 ^ 12) = fopp (f1 : Fq).
Proof.
  assert (E : fopp (f1 : Fq) = lFq (-1)) by (symmetry; exact (inj_opp q_vesta good_vesta 1)). rewrite E. rewrite <- nat_pow2.
  apply (pow_z q_vesta good_vesta red_vesta red_vesta_ok); [reflexivity|vm_compute; reflexivity].
Qed.
Lemma fq_keys : keys_check (Z.to_N q_vesta) (2 ^ 12) (mkrows (Z.to_N q_vesta) 6 43 (Z.to_N fq_key_root)) = true.
Proof. vm_compute. reflexivity. Qed.
(* 32 is the two-adicity of the field, and the root of unity that of pasta_curves *)
Lemma fq_order' : fpow (lFq fq_root) (2 ^ (32 - 1)) = fopp (f1 : Fq). Proof. exact fq_order. Qed.
Lemma fq_half : fmul two (lFq 14474011154664524427946373126085988481681528240970823689839871374196681474049) = (f1 : Fq). Proof. apply gf_ext. vm_compute. reflexivity. Qed.
Lemma fq_root_inv : fmul (lFq fq_root) (lFq 15473837148386567524843853340053283363563732086807834867098186504222884456502) = (f1 : Fq). Proof. apply gf_ext. vm_compute. reflexivity. Qed.
Lemma fq_S : 1 <= 32. Proof. lia. Qed.
Definition TAFq : TwoAdic Fq := mkTwoAdic Fq 32 (lFq fq_root) (lFq 15473837148386567524843853340053283363563732086807834867098186504222884456502) (lFq 14474011154664524427946373126085988481681528240970823689839871374196681474049) fq_S fq_order' fq_root_inv fq_half.
Definition fq_zeta : Fq := lFq 0x6819a58283e528e511db4d81cf70f5a0fed467d47c033af2aa9d2e050aa0e4f.
Lemma fq_zeta_ok : fadd (fadd (fmul fq_zeta fq_zeta) fq_zeta) f1 = f0.
Proof. apply gf_ext. vm_compute. reflexivity. Qed.
Lemma fq_third : (Z.to_nat (q_vesta - 1) = 3 * Z.to_nat 9649340769776349618630915417390658987787685493980549126559914249464454316032)%nat.
Proof. unfold q_vesta. lia. Qed.
Lemma fq_noncube : fpow (lFq (-5)) (Z.to_nat 9649340769776349618630915417390658987787685493980549126559914249464454316032) <> f1.
Proof.
  intros E. assert (Q : fpow (lFq (-5)) (Z.to_nat 9649340769776349618630915417390658987787685493980549126559914249464454316032) = lFq 2942865608506852014473558576493638302197734138389222805617480874486368177743) by (apply (pow_z q_vesta good_vesta red_vesta red_vesta_ok); [reflexivity|vm_compute; reflexivity]).
  rewrite E in Q. apply (f_equal vFq) in Q. revert Q. vm_compute. discriminate.
Qed.

(** ** the theorems *)
(** every literal of the four tables compiles, and is the canonical representative of the
    element it stands for *)
Theorem C59_literals :
  Forall (Forall (fun x => repr256 x <> None /\ vFp (fp x) = Z.of_N x)) (fp_ROUND_CONSTANTS ++ fp_MDS_MATRIX) /\
  Forall (Forall (fun x => repr256 x <> None /\ vFq (fq x) = Z.of_N x)) (fq_ROUND_CONSTANTS ++ fq_MDS_MATRIX).
Proof.
  assert (A : forall p t, small p t = true -> (p <= 2 ^ 256)%Z -> Forall (Forall (fun x => repr256 x <> None /\ (Z.of_N x <? p)%Z = true)) t).
  { intros p t S B. apply Forall_forall. intros r Hr. apply Forall_forall. intros x Hx. unfold small in S. rewrite forallb_forall in S. specialize (S r Hr). rewrite forallb_forall in S. specialize (S x Hx).
    split; [|exact S]. pose proof (lit_value p x S B). destruct (repr256 x); [discriminate|contradiction]. }
  assert (Ap : forall t, small p_pallas t = true -> Forall (Forall (fun x => repr256 x <> None /\ vFp (fp x) = Z.of_N x)) t).
  { intros t S. apply (Forall_impl _ (P := Forall (fun x => repr256 x <> None /\ (Z.of_N x <? p_pallas)%Z = true))); [|exact (A _ t S pallas_bound)].
    intros r. apply Forall_impl. intros x (N & L). split; [exact N|]. rewrite (fp_val x L). unfold vFp, lFp. rewrite val_mk. apply Z.mod_small. apply Z.ltb_lt in L. lia. }
  assert (Aq : forall t, small q_vesta t = true -> Forall (Forall (fun x => repr256 x <> None /\ vFq (fq x) = Z.of_N x)) t).
  { intros t S. apply (Forall_impl _ (P := Forall (fun x => repr256 x <> None /\ (Z.of_N x <? q_vesta)%Z = true))); [|exact (A _ t S vesta_bound)].
    intros r. apply Forall_impl. intros x (N & L). split; [exact N|]. rewrite (fq_val x L). unfold vFq, lFq. rewrite val_mk. apply Z.mod_small. apply Z.ltb_lt in L. lia. }
  split; apply Forall_app; split.
  - exact (Ap _ (proj1 fp_small)).
  - exact (Ap _ (proj2 fp_small)).
  - exact (Aq _ (proj1 fq_small)).
  - exact (Aq _ (proj2 fq_small)).
Qed.
Print Assumptions C59_literals.

(** the parameters are well-formed (the sponge theorems C34, C35 and the recursion
    theorems apply to them) *)
Theorem C59_wf : wf_params PoseidonFp /\ wf_params PoseidonFq.
Proof.
  assert (L : forall (F : Field) (f : N -> F) t, forallb (fun r => Nat.eqb (length r) 5) t = true -> Forall (fun r => length r = 5) (map (map f) t)).
  { intros F f t E. apply Forall_forall. intros r Hr. apply in_map_iff in Hr. destruct Hr as (r0 & <- & I). rewrite map_length. rewrite forallb_forall in E. apply Nat.eqb_eq. exact (E r0 I). }
  split; (split; [reflexivity|]; split; [cbn; lia|]; split; [reflexivity|]; split; [apply L; reflexivity|]; split; [cbn; lia|apply L; reflexivity]).
Qed.
Print Assumptions C59_wf.

(** the matrices are maximum distance separable *)
Theorem C59_mds : separable 5 (pp_mds PoseidonFp) /\ separable 5 (pp_mds PoseidonFq).
Proof.
  assert (L : forall t, forallb (fun r : list N => Nat.eqb (length r) 5) t = true -> Forall (fun r : list Z => length r = 5) (zs t)).
  { intros t E. apply Forall_forall. intros r Hr. apply in_map_iff in Hr. destruct Hr as (r0 & <- & I). rewrite map_length. rewrite forallb_forall in E. apply Nat.eqb_eq. exact (E r0 I). }
  split; cbn [pp_mds PoseidonFp PoseidonFq].
  - rewrite (fp_table _ (proj2 fp_small)). apply (separable_ok p_pallas good_pallas red_pallas red_pallas_ok); [exact fp_regular|reflexivity|apply L; reflexivity].
  - rewrite (fq_table _ (proj2 fq_small)). apply (separable_ok q_vesta good_vesta red_vesta red_vesta_ok); [exact fq_regular|reflexivity|apply L; reflexivity].
Qed.
Print Assumptions C59_mds.

(** the two permutations are permutations of the states *)
Theorem C59_permutation : permutes 5 (poseidon PoseidonFp) /\ permutes 5 (poseidon PoseidonFq).
Proof.
  split.
  - change 5 with (pp_T PoseidonFp) at 1. apply (poseidon_permutes Fp PoseidonFp (fun i j => lFp (zent fp_inverse i j)) (fun x => fpow x (Z.to_nat 23158417847463239084714197001737581570690445185553248572763741411479974104269))); [exact (proj1 C59_wf)| | | |].
    + intros i k Hi Hk. transitivity (if Nat.eqb i k then f1 else f0 : Fp); [|reflexivity]. etransitivity; [|exact (inverse_ok p_pallas good_pallas 5 _ _ (proj1 fp_inverse_ok) i k Hi Hk)]. apply fsum_ext. intros j _. cbn [pp_mds PoseidonFp]. rewrite (fp_table _ (proj2 fp_small)). unfold lFp at 1. now rewrite (ent_inj p_pallas good_pallas).
    + intros i k Hi Hk. transitivity (if Nat.eqb i k then f1 else f0 : Fp); [|reflexivity]. etransitivity; [|exact (inverse_ok p_pallas good_pallas 5 _ _ (proj2 fp_inverse_ok) i k Hi Hk)]. apply fsum_ext. intros j _. cbn [pp_mds PoseidonFp]. rewrite (fp_table _ (proj2 fp_small)). unfold lFp at 2. now rewrite (ent_inj p_pallas good_pallas).
    + intros x. exact (fifth_onto Fp _ (fermat_f p_pallas prime_pallas good_pallas) _ _ x fp_fifth).
    + intros x y. exact (fifth_inj Fp _ (fermat_f p_pallas prime_pallas good_pallas) _ _ x y fp_fifth).
  - change 5 with (pp_T PoseidonFq) at 1. apply (poseidon_permutes Fq PoseidonFq (fun i j => lFq (zent fq_inverse i j)) (fun x => fpow x (Z.to_nat 23158417847463239084714197001737581570690445185553317903743794198714690358477))); [exact (proj2 C59_wf)| | | |].
    + intros i k Hi Hk. transitivity (if Nat.eqb i k then f1 else f0 : Fq); [|reflexivity]. etransitivity; [|exact (inverse_ok q_vesta good_vesta 5 _ _ (proj1 fq_inverse_ok) i k Hi Hk)]. apply fsum_ext. intros j _. cbn [pp_mds PoseidonFq]. rewrite (fq_table _ (proj2 fq_small)). unfold lFq at 1. now rewrite (ent_inj q_vesta good_vesta).
    + intros i k Hi Hk. transitivity (if Nat.eqb i k then f1 else f0 : Fq); [|reflexivity]. etransitivity; [|exact (inverse_ok q_vesta good_vesta 5 _ _ (proj2 fq_inverse_ok) i k Hi Hk)]. apply fsum_ext. intros j _. cbn [pp_mds PoseidonFq]. rewrite (fq_table _ (proj2 fq_small)). unfold lFq at 2. now rewrite (ent_inj q_vesta good_vesta).
    + intros x. exact (fifth_onto Fq _ (fermat_f q_vesta prime_vesta good_vesta) _ _ x fq_fifth).
    + intros x y. exact (fifth_inj Fq _ (fermat_f q_vesta prime_vesta good_vesta) _ _ x y fq_fifth).
Qed.
Print Assumptions C59_permutation.

(** the generator 5 is not a square, and of x and 5 x one is (the endoscalar extraction
    relies on it) *)
Theorem C59_squares :
  (~ square (lFp 5) /\ forall x : Fp, square x \/ square (fmul (lFp 5) x)) /\
  (~ square (lFq 5) /\ forall x : Fq, square x \/ square (fmul (lFq 5) x)).
Proof.
  assert (Gp : fpow (fpow (lFp 5) (2 * Z.to_nat fp_h + 1)) (2 ^ 31) = fopp (f1 : Fp)) by (rewrite fp_gen; exact fp_order).
  assert (Gq : fpow (fpow (lFq 5) (2 * Z.to_nat fq_h + 1)) (2 ^ 31) = fopp (f1 : Fq)) by (rewrite fq_gen; exact fq_order).
  split; split.
  - exact (gen_nonsquare Fp _ (fermat_f p_pallas prime_pallas good_pallas) _ _ _ fp_group fp_two Gp).
  - exact (square_or Fp _ (fermat_f p_pallas prime_pallas good_pallas) _ _ _ fp_group Gp).
  - exact (gen_nonsquare Fq _ (fermat_f q_vesta prime_vesta good_vesta) _ _ _ fq_group fq_two Gq).
  - exact (square_or Fq _ (fermat_f q_vesta prime_vesta good_vesta) _ _ _ fq_group Gq).
Qed.
Print Assumptions C59_squares.

(** no point of either curve (y^2 = x^3 + 5) has y = 0: doubling is defined at every
    point other than the identity *)
Theorem C59_no_order_two : (forall x : Fp, fadd (fpow x 3) (lFp 5) <> f0) /\ (forall x : Fq, fadd (fpow x 3) (lFq 5) <> f0).
Proof.
  split; intros x E.
  - apply (not_cube Fp _ (fermat_f p_pallas prime_pallas good_pallas) (lFp (-5)) _ fp_third) with (c := x); [|exact fp_noncube|].
    + intros Z. apply (f_equal vFp) in Z. revert Z. vm_compute. discriminate.
    + apply (add_zero Fp) in E. rewrite E. symmetry. exact (inj_opp p_pallas good_pallas 5).
  - apply (not_cube Fq _ (fermat_f q_vesta prime_vesta good_vesta) (lFq (-5)) _ fq_third) with (c := x); [|exact fq_noncube|].
    + intros Z. apply (f_equal vFq) in Z. revert Z. vm_compute. discriminate.
    + apply (add_zero Fq) in E. rewrite E. symmetry. exact (inj_opp q_vesta good_vesta 5).
Qed.
Print Assumptions C59_no_order_two.

(** The registry's lookup key is the low 64 bits of five times the root of unity: for
    domains of up to 2^13 elements (the most a registry of this rank can have) no two keys coincide, in either field. *)
Theorem C59_keys : forall k, k <= 13 ->
  (forall w w' : Fp, fpow w (2 ^ k) = f1 -> fpow w' (2 ^ k) = f1 -> omega_key Fp (fun x => Z.to_N (vFp x)) w = omega_key Fp (fun x => Z.to_N (vFp x)) w' -> w = w') /\
  (forall w w' : Fq, fpow w (2 ^ k) = f1 -> fpow w' (2 ^ k) = f1 -> omega_key Fq (fun x => Z.to_N (vFq x)) w = omega_key Fq (fun x => Z.to_N (vFq x)) w' -> w = w').
Proof.
  intros k Hk.
  assert (Up : forall (F : Field) (w : F), fpow w (2 ^ k) = f1 -> fpow w (2 ^ 13) = f1).
  { intros F w E. replace 13 with (k + (13 - k)) by lia. rewrite Nat.pow_add_r, fpow_mul, E. apply fpow_one. }
  split; intros w w' E E' K.
  - exact (keys_distinct_big p_pallas good_pallas (Z.to_N p_pallas) eq_refl 12 6 42 (Z.to_N fp_key_root) fp_key_order fp_keys w w' (Up _ _ E) (Up _ _ E') K).
  - exact (keys_distinct_big q_vesta good_vesta (Z.to_N q_vesta) eq_refl 12 6 42 (Z.to_N fq_key_root) fq_key_order fq_keys w w' (Up _ _ E) (Up _ _ E') K).
Qed.
Print Assumptions C59_keys.

(** two roots of unity with their keys; a state with one nonzero coordinate and the
    weight of its image; two states that are told apart *)
Example C59_ex :
  fpow (lFp (-1)) (2 ^ 1) = f1 /\
  (omega_key Fp (fun x => Z.to_N (vFp x)) (lFp (-1)), omega_key Fp (fun x => Z.to_N (vFp x)) (lFp 1)) = (11037532056220336124%N, 5%N) /\
  weight [lFp 0; lFp 3; lFp 0; lFp 0; lFp 0] = 1 /\
  weight (apply_matrix (pp_mds PoseidonFp) [lFp 0; lFp 3; lFp 0; lFp 0; lFp 0]) = 5 /\
  square (fmul (lFp 5) (lFp 5)) /\
  poseidon PoseidonFp (map lFp [1; 2; 3; 4; 5]%Z) <> poseidon PoseidonFp (map lFp [1; 2; 3; 4; 6]%Z).
Proof.
  split; [apply gf_ext; vm_compute; reflexivity|]. split; [vm_compute; reflexivity|]. split; [vm_compute; reflexivity|]. split; [vm_compute; reflexivity|].
  split; [exists (lFp 5); reflexivity|]. intros E.
  destruct (proj1 C59_permutation) as [Ln Un]. destruct (Un _ (Ln (map lFp [1; 2; 3; 4; 5]%Z) eq_refl)) as (v & _ & _ & U).
  assert (X : map lFp [1; 2; 3; 4; 5]%Z = map lFp [1; 2; 3; 4; 6]%Z) by (transitivity v; [apply U; reflexivity|symmetry; apply U; [reflexivity|symmetry; exact E]]).
  cbn [map] in X. injection X as X. revert X. vm_compute. discriminate.
Qed.
