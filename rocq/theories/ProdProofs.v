(** Endoscalars over the circuit field: 37 field elements whose 128 bits are determined,
    with different endoscalars. *)
From Coq Require Import List Arith NArith ZArith Znumtheory Bool Lia Ring Field.
From Verif Require Import FieldDef GF PrimeCert Pasta ArithModel GadgetModel GadgetSpec EndoSpec EndoProofs TxzProofs RecSpec AccSpec PastaSpec PastaProofs PastaProofs2 Props_Pasta ProdModel.
Import ListNotations.
Local Open Scope nat_scope.

(** a field in which exactly one of v and gen v is a square, for v <> 0 *)
Section Bits.
  Variable F : Field.
  Add Field FFu24 : (f_theory F).
  Open Scope f_scope.
  Variable gen : F.
  Hypothesis Gn : ~ square gen.
  Lemma one_square (v : F) : v <> 0 -> square v -> square (gen * v) -> False.
  Proof.
    intros Nv (s & Es) (t & Et). assert (Ns : s <> 0) by (intros ->; apply Nv; rewrite <- Es; ring).
    apply Gn. exists (t / s). transitivity ((t * t) / (s * s)); [field; exact Ns|]. rewrite Et, Es. field. exact Nv.
  Qed.
  Lemma beta_determined nbits zeta (pb : F) bs : length bs = nbits -> (forall i, (i < nbits)%nat -> pb + fnat i <> 0) ->
    (forall i, (i < nbits)%nat -> bit_ok F gen pb i (nth i bs false)) ->
    is_beta false nbits gen zeta pb (lift_bits F zeta bs ((zeta + 1) + (zeta + 1))) /\
    forall b, is_beta false nbits gen zeta pb b -> b = lift_bits F zeta bs ((zeta + 1) + (zeta + 1)).
  Proof.
    intros L Nz Q. split; [now exists bs|]. intros b (bs' & L' & Hb & ->). f_equal. apply (nth_ext _ _ false false); [congruence|]. intros i Hi. rewrite L' in Hi.
    specialize (Hb i Hi). specialize (Q i Hi). cbn [bit_ok] in Hb. unfold bit_ok in Hb, Q.
    destruct (nth i bs' false), (nth i bs false); try reflexivity; exfalso; eapply (one_square _ (Nz i Hi)); eassumption.
  Qed.
End Bits.

(** the bits of 1 to 164: a square root of k, or of 5 k *)
Definition sq_certs : list (bool * Z) := [
(true, 0x1%Z);
  (true, 0x2fd2824a745a76d66eba979e78df0e0b0b212c20aed866d85a27becfb118d24%Z);
  (true, 0x1b719b2a9bc767435b496787409d0a9b5c0a02f1e7ad80b9a7e194b311a07500%Z);
  (true, 0x2%Z);
  (false, 0x5%Z);
  (true, 0x1b74b5a30a12937c53dfa9f06378ee548f655bd4333d477119cf7a23caed2abb%Z);
  (false, 0x1ec28b0d64a8dd75b63b23ae26ae5091a6ae0bb2bac62d815b11104a0b73ef77%Z);
  (true, 0x5fa50494e8b4edacdd752f3cf1be1c16164258415db0cdb0b44f7d9f6231a48%Z);
  (true, 0x3%Z);
  (false, 0xef1c8b7445c4523029a4f6185c5b463737a5dca36a3a0239c2c6ba0e757c1b4%Z);
  (false, 0x5d67c8136cbb7103bb9e19ea1452dbbef36eaf819fe2dc65d1198819aa649b5%Z);
  (true, 0x91cc9aac8713179496d30f17ec5eac96a32931839f1f7a8496a0786dcbf1601%Z);
  (false, 0x5c3393f76823455aa9fd0c3d375933a6cc58416656133e773ed6aa7a2e6fb2d%Z);
  (false, 0xcbca0bd39bd04fbef0268cf0fd4b9e32a348416ff5e0bbc93b4a72facb479ed%Z);
  (false, 0x93807d50ae50450c86f05a44311350887a4dcc173c99169150d85a5582248fe%Z);
  (true, 0x4%Z);
  (false, 0x1945dd012170766caca15cee6697351f9f51a601550efb8fb4a90664cfef46bb%Z);
  (true, 0x8f7786df5d0f64834c2fc6db6a9d2a21216384620c8934890e773c6f134a76c%Z);
  (true, 0xa3acaae04b0e7823bdbc015e9dffdbccdfc8cd86e9f1557944047ea1b8d374b%Z);
  (false, 0xa%Z);
  (false, 0x52c4da48fda2161726f57ba657742bf52fbf878b9373b87ace7e0b46391da4%Z);
  (false, 0xda8803c9ab0bc15898b90a06c4490df26df3ef3297d5c2a08c100d5c7fd70c2%Z);
  (true, 0x1e898d09f1a58c82736765275e846d93a47b974c293d406af1c12130fd7d4d0e%Z);
  (true, 0x91694b9ebdad9075840ac1f390e2357037be153a2d26a39658e3ca56a25aa8b%Z);
  (true, 0x5%Z);
  (false, 0xbec020f099bc23785cc55073927b4c5784387ea7c9c5aa6184b70fe33cd6cd4%Z);
  (true, 0x1254d17fd35635ca11dc3695c1d71fd1f1d76fd9adbb89115e778d2c34e15eff%Z);
  (false, 0x27ae9e536ae45149389b8a3b2a35edcd4ea819693c09e18e30b1058e9182113%Z);
  (true, 0x1f2ddce52459724b4df90fb6f3b4275f411dd5434d58b2454aa7a64b5836f511%Z);
  (false, 0x9478c2f325ce16da35e51b1f15ca7a6886d992ced9872fe4eb300d8f6a1d5a5%Z);
  (false, 0x3275cecbfcc4c31ff697eadd185a21ba9cf2670ec1e641b0665e5377de71ced%Z);
  (true, 0xbf4a0929d169db59baea5e79e37c382c2c84b082bb619b61689efb3ec463490%Z);
  (false, 0x16478be9c105c403218b3f851878a3b03a08c213034d3b3e20583c6ee41c3b81%Z);
  (false, 0x1e40157a8e8dc5381f189c7be421942dcfdfc544c21e2595f82b24a8e3d5b4c7%Z);
  (true, 0x1ec28b0d64a8dd75b63b23ae26ae5091a6ae0bb2bac62d815b11104a0b73ef77%Z);
  (true, 0x6%Z);
  (false, 0x3ed07ea04be13aebea6f90375ca8bbf59d4a1e2da18bb7209913b0f9079c46e%Z);
  (true, 0x18e5f3ef779a2ecc27f42b63ad6ce2d90e5544dfd66c52373f188645fd1e26c3%Z);
  (false, 0x1f20e82a80d16212e73bf9cf99f227e6a5952f41627499c01164df68847e7957%Z);
  (false, 0x1de3916e88b88a4605349ec30b8b68c6e6f4bb946d4740473858d741ceaf8368%Z);
  (false, 0x1f158b785f01796128ef5b7ef8cb1089cf55ac69fc8735ac3057db7e70d76ff4%Z);
  (false, 0x1a61724912531357f1c4eff0c73bded16b90f6e9cade3ad8b1c343e13c944196%Z);
  (false, 0x113033e85053511d58333799578154c46fea6c88e0229f46ffbe837be4cab7ec%Z);
  (false, 0xbacf9026d976e207773c33d428a5b77de6dd5f033fc5b8cba233103354c936a%Z);
  (false, 0xf%Z);
  (true, 0x64b06ae374fbcbfded1dc606659e1e3709c63529f0d94219e18e6edaab4692e%Z);
  (true, 0x190da28b5d7b54db8c44abcd3f70fe466f1cc3269ad5f6f38e2aaac848b68f6d%Z);
  (true, 0x1239935590e262f292da61e2fd8bd592d465263073e3ef5092d40f0db97e2c02%Z);
  (true, 0x7%Z);
  (true, 0xef1c8b7445c4523029a4f6185c5b463737a5dca36a3a0239c2c6ba0e757c1b4%Z);
  (false, 0x10dabab9814d9f8062d8545c23d4b49c22f2a3628d6f7544758f9d891c339797%Z);
  (false, 0xb86727eed0468ab553fa187a6eb2674d98b082ccac267cee7dad54f45cdf65a%Z);
  (false, 0x1ff6768d702fcd88523de5b40f760d3daa6e7dd455c4024f529254a19b8a6da8%Z);
  (true, 0x125e20e91e37ba74fb9efdd12a6acafd8be97a80906add37b4413d7e60c78030%Z);
  (true, 0x5d67c8136cbb7103bb9e19ea1452dbbef36eaf819fe2dc65d1198819aa649b5%Z);
  (false, 0x1979417a737a09f7de04d19e1fa973c65469082dfebc177927694e5f5968f3da%Z);
  (true, 0x102250f76a6804e16122ed5872c61363631a515105058a5341e68c5436b7b796%Z);
  (true, 0xc539f7cc7bb4c97383cecf2b9b3c084d49056b4ea1e46cd0701e364c147607%Z);
  (true, 0x8bcd64f1f56b2038f9d1b9cfeba473673d52d3208354746a61743b42773450c%Z);
  (false, 0x12700faa15ca08a190de0b4886226a110f49b982e79322d22a1b0b4ab04491fc%Z);
  (false, 0xc18fc4261080cf543ac35e875021f8972cddeb2d992c3e229b22e75127c120%Z);
  (false, 0x1aa941a2ad6f50882b44929a510ee041df23811c9d57e0da268941f4ed2bb9e7%Z);
  (false, 0x1c47a1282dfa986122b16b0a740af1b4d1c38a1c27058f687805fff1225bce64%Z);
  (true, 0x8%Z);
  (true, 0x5c3393f76823455aa9fd0c3d375933a6cc58416656133e773ed6aa7a2e6fb2d%Z);
  (false, 0x3c35212cbba9461323a18fdc81142e61c0a8480a9784abc3c49bd04f6de83fb%Z);
  (true, 0x15c09dfd0cce946dba1485d0fd7074c0995a5d1d357dddff4ed9125bbc9bb079%Z);
  (false, 0xd7445fdbd1f1326a6bd462332d195c0e3a34cf95f2f01fc2fdb24236021728b%Z);
  (true, 0x17118937f85763edae883f37f5f94ac33ea27e818fde347b7f65f2b1cfd5cc2%Z);
  (true, 0xcbca0bd39bd04fbef0268cf0fd4b9e32a348416ff5e0bbc93b4a72facb479ed%Z);
  (false, 0x163e88073b6115592cd73e6868e433c10b1da64695ad5a47ea5dd3d73b5c6ff%Z);
  (true, 0x11eef0dbeba1ec906985f8db6d53a544242c708c4191269121cee78de2694ed8%Z);
  (true, 0x121f4a30c7241ead5fb32ff3187d57bcab4c7bdf5a1f17342a3f0e8b78fbcafe%Z);
  (false, 0x6c1403a82b49b8740d8eddcb86a27a4ad5b0bfd775e57ff55c9354462a836f6%Z);
  (true, 0x93807d50ae50450c86f05a44311350887a4dcc173c99169150d85a5582248fe%Z);
  (true, 0x1475955c0961cf0477b7802bd3bffb799bf919b0dd3e2aaf28808fd4371a6e96%Z);
  (true, 0x165ebf40b93e6e63f9c5c5744f996b0fe0765b60b81b60b7211000c65dd46937%Z);
  (false, 0x8614df50b2ed7cb811080a76eb789cd25b92d3c0f5ced45729d4f86dc13a589%Z);
  (true, 0x1b7e0552abbed98dab7d80d64718423daf85ade44a4a3ae63b91d20409166c01%Z);
  (false, 0x14%Z);
  (true, 0x9%Z);
  (false, 0x1adc693f26d719c76dd7218df3812f456d28d1369629f9e0dc643ef259bf4426%Z);
  (false, 0xd71415f044726430b2b9234b84fe45db84af9bfc03e0ff35c18d3d0ddd7e0fe%Z);
  (false, 0xa589b491fb442c2e4deaf74caee857ea5f7f0f1726e770f59cfc168c723b48%Z);
  (true, 0x1945dd012170766caca15cee6697351f9f51a601550efb8fb4a90664cfef46bb%Z);
  (false, 0xe481d4ea3da80fb2ad62c3edcafedd18e32e3e540285168bf747651828c8e91%Z);
  (true, 0x2c3d3c0f11f08d6bde3ee5156595ffaebfe0c16af5447a141b917711f7c4e80%Z);
  (false, 0x1b5100793561782b13172140d88921be4dbe7de652fab854118201ab8ffae184%Z);
  (false, 0xb048d587051f8ea66ebe085f9ae8783f5d8592dc3124e568d3c7062b40eadde%Z);
  (false, 0x132aa5da32eb3096f83111db6eaee2d5c7d77f9d656218b0c4a7ee0a49f8bae5%Z);
  (true, 0x16761349d321623d6a10cce924b24750fb46565ad71b5d7b84e298328f43c4c4%Z);
  (true, 0x2ece5ec1cb4e6fb193135b142f724d8d94f6a63b6d27845b5aaee8b050565e5%Z);
  (false, 0x1f7ffac8305b2668eeabcd53709355e6623b09c95158712038a43fb8020c5547%Z);
  (true, 0x1d9d992e8ce336ac4a1cc1958ffbf07a5d6cf126a831f0160a847fc14f45c821%Z);
  (false, 0xcda0a99e88b7a74d4b53f926ea00b501c57d8c1e0318e65b3ebc95a763deb8a%Z);
  (true, 0x122d2973d7b5b20eb081583e721c46ae06f7c2a745a4d472cb1c794ad44b5516%Z);
  (false, 0x1d2e0d56362cc4d477e7f2dd135812a2c675ce8e099f46bc8c7d40b02f3bca05%Z);
  (true, 0x14ec190092e793fdd071a25554e19624d4de834e4c7eacfea771637add7adbfc%Z);
  (false, 0x11837583a4632530b32da4dbe3cf8933cda4c0e84dfa89531734c984cff2dd1f%Z);
  (true, 0xa%Z);
  (false, 0x1a97800ddd7f77961e796ff6341a02b2310990f23fea6f61457129399d6b5ccf%Z);
  (false, 0x1ce980943cece15b6f30e99895c7a69f8cd2289c50d307d843b5fb9627e827b6%Z);
  (false, 0x46a310ca49bf735a505055cff14deb28e4afb33deafdaa9d933ee906328ddd5%Z);
  (false, 0x17d8041e1337846f0b98aa0e724f698af0870fd4f938b54c3096e1fc679ad9a8%Z);
  (true, 0x52c4da48fda2161726f57ba657742bf52fbf878b9373b87ace7e0b46391da4%Z);
  (false, 0x1d8d4d5fb271bfedb53d5a6aba16c5dbe2a3d3a457be4eb3bfcf98753e38fbe5%Z);
  (true, 0x1c99814ea88c4c84c7ad5fb4a9571280113a3872f61995d31c9672ff9b37596c%Z);
  (true, 0x1b565d005953946bdc4792d47c51c05c3e97b948add5e6f8dc3e1694963d4203%Z);
  (false, 0x113db45a7cde0ece02f83d1d465469a3688a2fa4cbe9ca61bc232128c96f36c9%Z);
  (true, 0xda8803c9ab0bc15898b90a06c4490df26df3ef3297d5c2a08c100d5c7fd70c2%Z);
  (false, 0x1258630c1bc4ecc8676d30cc49befe125f0f440845f7a3b48a3c86de0adab0b4%Z);
  (false, 0x4f5d3ca6d5c8a29271371476546bdb9a9d5032d27813c31c61620b1d2304226%Z);
  (true, 0x17c06b14e1d13be63e959bddd9f67a184a26ffd329468bc00e8df35c356d3c00%Z);
  (true, 0x8ecda615f807f393ada97c65217e03bd8bfa621f93bca373776f408f08544bb%Z);
  (false, 0x18afc131b83bbe8c4104f9c4d89623e1f1dcc284bb984fdf866b441af3728144%Z);
  (true, 0x1a44635b74d1b69640de0921897b141a00aee756e9b949103dde4564f9215df%Z);
  (false, 0x1149abbe63869d00ffdf724b7a60b9af46508c4330239bb65bc83ff6e8b4f187%Z);
  (true, 0x1c790d831bd489bc63dfdffbc82cc6b76aaf4554a130ac155d1ef319f5ddbe9c%Z);
  (true, 0x2db8800454c2da105fe5b08c429481aef7bf47f15cd7ce03a1514d7e0efd0dc%Z);
  (false, 0x128f185e64b9c2db46bca363e2b94f4d10db3259db30e5fc9d6601b1ed43ab4a%Z);
  (true, 0xb%Z);
  (false, 0x136b8c529081a94397bba4e0b52d60fb08f92ddc34d29834a2ea6268650cca0b%Z);
  (false, 0x30dea96f61121bbf57900341506314d68be6e8804aa7003e2c735c40e043089%Z);
  (false, 0x64eb9d97f989863fed2fd5ba30b4437539e4ce1d83cc8360ccbca6efbce39da%Z);
  (false, 0x19%Z);
  (false, 0x19ca1dc852c8f10c32f8c592d081d256a3a90cb70b32d5e5de0f3b5df9e2923a%Z);
  (true, 0x142f8aece677cba0a095494d774dc4b0a2c5d606c89a6e54ee460664817b0239%Z);
  (true, 0x17e941253a2d3b6b375d4bcf3c6f870585909610576c336c2d13df67d88c6920%Z);
  (false, 0x8bbd820fa7af418dc0bfb91bf1bb9d7c0f2232e41cfd84edf8e683895d32b4b%Z);
  (true, 0xbec020f099bc23785cc55073927b4c5784387ea7c9c5aa6184b70fe33cd6cd4%Z);
  (false, 0x1a4db69b8aaa7a039453d69e3191dd26030b9c8bbb77f8e5c578a2164a597ad1%Z);
  (false, 0x1370e82c7df477f9bce980f5cf0eb89fae3514d602b2829f587cb80f37c788ff%Z);
  (false, 0x19ad0f27f17797c152c528437a191132856acf008f8ec0aa0e0dc1516135a800%Z);
  (true, 0x6fbc61ed7efc980125dd3806be9309794e1d379c723a34397023f1cfd2f43ff%Z);
  (false, 0x1ba8177f20af0cf2594d10ecc9339f1996ee96445b5cb43b3f2890f00866dafa%Z);
  (false, 0x37fd50ae2e4758fc1cec70837bcd7a482870e728510adefa8d6e79b38549673%Z);
  (true, 0x32881dd3eb0a3b2047e35f2fdb9247ed7e404c66388fa579e727aad70e6aaf3%Z);
  (true, 0x1f5397c9b1ccd391e711f880af3132c82eec076e3ed87ab09cc915a3d5491d25%Z);
  (true, 0x1e30f8d1b556c949671a098147ec95ed1d8a3ab046bf88676b0a214619f9781c%Z);
  (true, 0x27ae9e536ae45149389b8a3b2a35edcd4ea819693c09e18e30b1058e9182113%Z);
  (true, 0x27823bf655f1dcc996e3d59d9e04d259e726e93b7ff3c105016731d2d760b71%Z);
  (false, 0x1a171054a30a9061c4b77d624f9f254063647ede36fed1730d0a0f0c5c306717%Z);
  (true, 0x6469fd9da6f5769eec0dbc4338329db4b7dc9f7b0cb8c293fa4a19629782c8b%Z);
  (true, 0xc%Z);
  (false, 0x1be55079b5bf3b7885dd4e92c284c4dc0107f8587021892342ebdd9eb912c953%Z);
  (true, 0xc0bb38a1cc10fa4bf568a822afacb8f400d3a9d2c5420efa7d722566b870d0a%Z);
  (true, 0x1b3e2a4273d2d77f01d4b2c44b4a3f1d7249a939d799c0cba37e1e7b6332fd%Z);
  (false, 0x7da0fd4097c275d7d4df206eb95177eb3a943c5b43176e41322761f20f388dc%Z);
  (false, 0x1f677317f270facba3fcdbfb9852443bfc50acb99476c2a14354003d75672f59%Z);
  (true, 0x9478c2f325ce16da35e51b1f15ca7a6886d992ced9872fe4eb300d8f6a1d5a5%Z);
  (true, 0x107fe4f54196b5d6016b79379e1f2145ef0da2dfd5914ec2adb2228ccd4339b0%Z);
  (true, 0xe34182110cba267b017a938a5263a4e059c0f3c5c7454ad1afc246105c3b27b%Z);
  (false, 0xbd197036451634605e416cb33c59f5ebbae5907f5dff99384cde2416fcdd430%Z);
  (true, 0x137eff2aaea226fb07afc85c02d0a9f7d4884b1e9468685f5bc7b8406156381f%Z);
  (true, 0x3275cecbfcc4c31ff697eadd185a21ba9cf2670ec1e641b0665e5377de71ced%Z);
  (false, 0x1be2faafe5d3bda31880c60cc1bb032d71c3a794463c59b7663721bf7030d53%Z);
  (false, 0xa01fcb17de5b70db1ed859438993952acd823286bc7a66149100c6aa88785fc%Z);
  (true, 0xa04779870060a0e5eac321985e54c921c88bd76728e9279b7895d2f7816b0e3%Z);
  (false, 0xfa8e24a63731a7ba295853553286bd50aa6fc603af380685402b509ac01bbb0%Z);
  (false, 0x438dd22ee8eeb73f596c279e8e92e72545d21d32ebe788d287b826962a0f931%Z);
  (false, 0xe32d2cd1d11b8b84cd8c55eeb25b9334f3d7d5a6cb2298987f5a99e7051d7a7%Z);
  (true, 0x1ae66949e172e2d89e48f54923fd77e63642a8d26259b9d9b2b65b54d39df644%Z);
  (false, 0x11d1427c9fd850df6ac59a10420241b806d51158ab07943b9fbe8d11eb62d3fe%Z);
  (false, 0x1d4e90f41fd0d3dae2149020e69deec839b4028103e8dc3387d79f01e512019%Z)
].
Definition sq_bit (k : nat) : bool := fst (nth (k - 1) sq_certs (true, 0%Z)).
Definition sq_root (k : nat) : Z := snd (nth (k - 1) sq_certs (true, 0%Z)).
Lemma sq_check : forallb (fun k => ((sq_root k * sq_root k) mod p_pallas =? (if sq_bit k then Z.of_nat k else 5 * Z.of_nat k))%Z) (seq 1 164) = true.
Proof. vm_compute. reflexivity. Qed.
Lemma lFp_mul a b : lFp (a * b) = fmul (lFp a) (lFp b). Proof. exact (inj_mul p_pallas good_pallas a b). Qed.
Lemma lFp_add a b : lFp (a + b) = fadd (lFp a) (lFp b). Proof. exact (inj_add p_pallas good_pallas a b). Qed.
Lemma lFp_opp a : lFp (- a) = fopp (lFp a). Proof. exact (inj_opp p_pallas good_pallas a). Qed.
Lemma lFp_one : lFp 1 = f1. Proof. apply gf_ext. vm_compute. reflexivity. Qed.
Lemma lFp_val a : vFp (lFp a) = (a mod p_pallas)%Z. Proof. unfold vFp, lFp. apply val_mk. Qed.
Lemma lFp_nat k : fnat k = lFp (Z.of_nat k).
Proof.
  induction k as [|k IH]; [apply gf_ext; vm_compute; reflexivity|]. rewrite Nat2Z.inj_succ. unfold Z.succ. rewrite lFp_add, lFp_one, <- IH. reflexivity.
Qed.

(** ** endoscalars as a + b zeta *)
Fixpoint zlift (bs : list bool) (a b : Z) : Z * Z :=
  match bs with
  | n :: e :: r => let d := (if n then -1 else 1)%Z in if e then zlift r (2 * a) (2 * b + d) else zlift r (2 * a + d) (2 * b)
  | _ => (a, b)
  end.
Section Lift.
  Variables (F : Field) (zeta : F) (inj : Z -> F).
  Add Field FFu25 : (f_theory F).
  Open Scope f_scope.
  Hypotheses (Ha : forall a b, inj (a + b)%Z = inj a + inj b) (Ho : forall a, inj (- a)%Z = - inj a) (H1 : inj 1%Z = 1).
  Lemma inj_double a : inj (2 * a)%Z = inj a + inj a.
  Proof. replace (2 * a)%Z with (a + a)%Z by lia. apply Ha. Qed.
  Lemma inj_sign (n : bool) : inj (if n then -1 else 1)%Z = if n then - (1) else 1.
  Proof. destruct n; [|exact H1]. change (-1)%Z with (- (1))%Z. now rewrite Ho, H1. Qed.
  Lemma zlift_ok : forall bs a b, lift_bits F zeta bs (inj a + inj b * zeta) = inj (fst (zlift bs a b)) + inj (snd (zlift bs a b)) * zeta.
  Proof.
    induction bs as [|c|n e bs IH] using pair_ind; intros a b; [reflexivity|reflexivity|]. cbn [lift_bits zlift]. unfold digit. destruct e.
    - rewrite <- IH. f_equal. rewrite Ha, !inj_double, inj_sign. destruct n; ring.
    - rewrite <- IH. f_equal. rewrite Ha, !inj_double, inj_sign. destruct n; ring.
  Qed.
End Lift.
Definition fp_zeta_z : Z := 0x12ccca834acdba712caad5dc57aab1b01d1f8bd237ad31491dad5ebdfdfe4ab9.
Definition pb_bits (k : nat) : list bool := map (fun i => sq_bit (k + i)) (seq 0 128).
Definition pb_lift (k : nat) : Z := let '(a, b) := zlift (pb_bits k) 2 2 in (a + b * fp_zeta_z)%Z.
Definition pb_beta (k : nat) : Fp := lift_bits Fp fp_zeta (pb_bits k) (fadd (fadd fp_zeta f1) (fadd fp_zeta f1)).
Lemma pb_beta_lift k : pb_beta k = lFp (pb_lift k).
Proof.
  unfold pb_beta, pb_lift.
  assert (E : fadd (fadd fp_zeta f1) (fadd fp_zeta f1) = fadd (lFp 2) (fmul (lFp 2) fp_zeta)) by (apply gf_ext; vm_compute; reflexivity).
  rewrite E, (zlift_ok Fp fp_zeta lFp lFp_add lFp_opp lFp_one). destruct (zlift (pb_bits k) 2 2) as [a b]. cbn [fst snd]. rewrite lFp_add, lFp_mul. reflexivity.
Qed.
Lemma pb_distinct : nodupb (map (fun k => (pb_lift k mod p_pallas)%Z) (seq 1 37)) = true.
Proof. vm_compute. reflexivity. Qed.
Lemma lFp_pos k : 0 < k -> k < 1000 -> lFp (Z.of_nat k) <> f0.
Proof.
  intros L U E. apply (f_equal vFp) in E. rewrite lFp_val, Z.mod_small in E by (unfold p_pallas; lia). change (vFp f0) with 0%Z in E. lia.
Qed.
Lemma fp_betas : many 37 (fun be : Fp => exists pb, is_beta false UENDO_BITS GENERATOR fp_zeta pb be /\ forall b, is_beta false UENDO_BITS GENERATOR fp_zeta pb b -> b = be).
Proof.
  exists (map pb_beta (seq 1 37)). split; [|split; [rewrite map_length, seq_length; apply le_n|]].
  - apply (NoDup_map_inv vFp). rewrite map_map. rewrite (map_ext _ (fun k => (pb_lift k mod p_pallas)%Z)) by (intros k; rewrite pb_beta_lift; apply lFp_val). apply nodupb_ok. exact pb_distinct.
  - intros b Hb. apply in_map_iff in Hb. destruct Hb as (k & <- & Hk). apply in_seq in Hk. exists (lFp (Z.of_nat k)).
    unfold pb_beta. refine (beta_determined Fp GENERATOR (proj1 (proj1 C59_squares)) UENDO_BITS fp_zeta (lFp (Z.of_nat k)) (pb_bits k) _ _ _).
    + unfold pb_bits. rewrite map_length, seq_length. reflexivity.
    + intros i Hi. unfold UENDO_BITS in Hi. rewrite lFp_nat, <- lFp_add, <- Nat2Z.inj_add. apply lFp_pos; lia.
    + intros i Hi. unfold UENDO_BITS in Hi. unfold pb_bits. rewrite (nth_indep _ false (sq_bit (k + 0))) by (rewrite map_length, seq_length; exact Hi).
      rewrite (map_nth (fun i => sq_bit (k + i))), seq_nth by exact Hi. cbn [Nat.add].
      pose proof (proj1 (forallb_forall _ _) sq_check (k + i) ltac:(apply in_seq; lia)) as C. cbv beta in C. apply Z.eqb_eq in C.
      unfold bit_ok. rewrite lFp_nat, <- lFp_add, <- Nat2Z.inj_add. exists (lFp (sq_root (k + i))). rewrite <- lFp_mul. unfold GENERATOR.
      destruct (sq_bit (k + i)); [|rewrite <- lFp_mul]; apply gf_ext; change (val p_pallas ?x) with (vFp x); rewrite !lFp_val, C.
      * rewrite Z.mod_small; [reflexivity|unfold p_pallas; lia].
      * rewrite Z.mod_small; [reflexivity|unfold p_pallas; lia].
Qed.
(** the field has more elements than any of the counts needs *)
Lemma fp_many k : (Z.of_nat k <= 2 ^ 64)%Z -> many k (fun _ : Fp => True).
Proof.
  intros L. exists (map (fun i => lFp (Z.of_nat i)) (seq 0 k)). split; [|split; [now rewrite map_length, seq_length|auto]].
  apply (NoDup_map_inv vFp). rewrite map_map, (map_ext_in _ Z.of_nat).
  - apply FinFun.Injective_map_NoDup; [intros a b E; now apply Nat2Z.inj|apply seq_NoDup].
  - intros i Hi. apply in_seq in Hi. rewrite lFp_val. apply Z.mod_small. unfold p_pallas. lia.
Qed.
Lemma fp_of_u_inj v v' : (v < 2 ^ 64)%N -> (v' < 2 ^ 64)%N -> fp_of_u v = fp_of_u v' -> v = v'.
Proof.
  intros L L' E. apply (f_equal vFp) in E. unfold fp_of_u in E. rewrite !lFp_val in E.
  assert (X : (Z.of_N (2 ^ 64) < p_pallas)%Z) by (vm_compute; reflexivity).
  rewrite !Z.mod_small in E by (split; [apply N2Z.is_nonneg|apply Z.lt_trans with (2 := X); now apply N2Z.inj_lt]). now apply N2Z.inj.
Qed.
