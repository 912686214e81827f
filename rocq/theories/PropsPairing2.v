(** The hypotheses of C79-C81 are met by BN254's generators: examples beside the theorems. *)
From Coq Require Import ZArith NArith Znumtheory Lia List Bool Ring.
From Verif Require Import Field Spec Context ContextProofs Utils Logic Gate GateProofs ChainProofs IPProofs BitProofs PowProofs IPComp Derived Calc CalcH
  Range RangeProofs RangeProofs2 RangeProofs3 BigInt BigSpec BigNum BigPrims BigOps BigSel BigCmp BigSub BigCarry BigMod BigCrtNum BigCrt
  FpChip FpProofs FpProofs2 FpProofs3 FpField FpField2 FpField3 Pocklington Bn254Primes PropsBigInt PropsFp Ecc PropsNaf FieldExt ExtSpec ExtSpec2 ExtProofs ExtProofs2 ExtProofs3 ExtProofs4 ExtProofs5 PropsExt PropsExt2
  RingPow CycSpec FrobSpec Cyclo Fp12Field FinalExp GaussOps FinalProofs FinalProofs2 FinalProofs3 FinalHigh PropsFinal PropsFinal2 PropsFinal3
  MillerSpec MillerAlg Pairing EccProofs EccProofs3 PairOps PairOps2 PairOps3 PairOps4 PairOps5 Bls BlsAlg PropsPairing.
Import ListNotations.
Local Open Scope Z_scope.

Section InstanceP.
Local Open Scope monad_scope.
Local Opaque npow.
Notation lb := 17%nat.
Notation n := 88%nat.
Notation k := 3%nat.
Notation bx := 4965661367192848881.
Notation z := (of_Z bn_q).
Notation X2 := (x2 bn_q).
Notation W6 := (w6 (m:=bn_q)).
Add Ring Fringp : (F_ring bn_q) (morphism (F_morph bn_q), constants [Fcst]).
Add Ring X2ringp : (x2_ring (m:=bn_q)).
Add Ring W6ringp : (w6_ring (m:=bn_q) 9).
(** [(u + v i)^e] over the integers; the hints only keep the numbers small *)
Fixpoint fpw (u v : Z) (e : positive) (hs : list Z) : Z * Z * list Z :=
  let sq a b hs := match hs with h1 :: h2 :: hs => ((a + b) * (a - b) - h1 * Z.pos bn_q, 2 * a * b - h2 * Z.pos bn_q, hs) | _ => ((a + b) * (a - b), 2 * a * b, []) end in
  match e with
  | xH => (u, v, hs)
  | xO e => let '(a, b, hs) := fpw u v e hs in sq a b hs
  | xI e => let '(a, b, hs) := fpw u v e hs in let '(c, d, hs) := sq a b hs in (c * u - d * v, c * v + d * u, hs)
  end.
Lemma q_0 : z (Z.pos bn_q) = F0. Proof. apply F_eq. vm_compute. reflexivity. Qed.
Lemma zsub a b : z (a - b) = Fsub (z a) (z b). Proof. apply (F_morph bn_q). Qed.
Notation npw := (npow (x2_1 (m:=bn_q)) x2_mul).
Lemma fpw_ok u v e : forall hs, let '(a, b, _) := fpw u v e hs in ((z a, z b) : X2) = npw (z u, z v) (N.pos e).
Proof.
  pose proof (x2_ring (m:=bn_q)) as XR.
  assert (D : forall a b f, ((z a, z b) : X2) = npw (z u, z v) (N.pos f) -> npw (z u, z v) (N.pos f~0) = ((z ((a + b) * (a - b)), z (2 * a * b)) : X2)).
  { intros a b f E. change (N.pos f~0) with (2 * N.pos f)%N. replace (2 * N.pos f)%N with (N.pos f + N.pos f)%N by lia. rewrite (npow_add _ _ _ _ _ _ XR), <- E. unfold x2_mul. cbn [fst Datatypes.snd]. replace (2 * a * b) with (a * b + a * b) by ring. rewrite !of_Z_add, !of_Z_mul, zsub, !of_Z_add. apply f_equal2; ring. }
  induction e as [e IH|e IH|]; intros hs; cbn [fpw].
  - specialize (IH hs). destruct (fpw u v e hs) as [[a b] hs']. specialize (D _ _ _ IH).
    change (N.pos e~1) with (N.succ (N.pos e~0)). rewrite (npow_succ), D.
    assert (H : forall c d, z c = z ((a + b) * (a - b)) -> z d = z (2 * a * b) -> ((z (c * u - d * v), z (c * v + d * u)) : X2) = x2_mul (z u, z v) (z ((a + b) * (a - b)), z (2 * a * b))).
    { intros c d <- <-. unfold x2_mul. cbn [fst Datatypes.snd]. rewrite zsub, of_Z_add, !of_Z_mul. apply f_equal2; ring. }
    destruct hs' as [|h1 [|h2 hs']]; apply H; try reflexivity; rewrite zsub, (of_Z_mul _ h1) || rewrite zsub, (of_Z_mul _ h2); rewrite q_0; ring.
  - specialize (IH hs). destruct (fpw u v e hs) as [[a b] hs']. specialize (D _ _ _ IH). rewrite D. destruct hs' as [|h1 [|h2 hs']]; [reflexivity|reflexivity|]. rewrite !zsub, (of_Z_mul _ h1), (of_Z_mul _ h2), q_0. apply f_equal2; ring.
  - symmetry. apply (npow_1 _ _ _ _ _ _ XR).
Qed.
Notation g0 := 8376118865763821496583973867626364092589906065868298776909617916018768340080.
Notation g1 := 16469823323077808223889137241176536799009286646108169935659301613961712198316.
Notation ge := (3648040478639879203707734290876212514782718526216303943781506315774204368097)%positive.
Definition hints : list Z := [0x0; 0x0; 0x0; 0x0; 0x0; 0x0; -0x1; 0x0; 0x30644e72e131a029b85045b68181585d97816a916871ca8d3c1daa67fb6d7f46; 0xe3c5c27b17fff; -0x3827d10f9591a1595b41fe0000; 0x60c89ce5c263405370a08b6d0302b0bb2f02d4989e1545c2bb95e9f2b4fbfa8e; -0x10d5716c5fbf1faf7f8412a904ed49c564763a; 0x2704eaf6fdc965ac0dc4da596bf2aa9e67d5b75; 0x85be3ab8c38503b60fee2db820579004e7b75107597320dfa17c8eaaeb7972c; 0x3a9a87297c92d9d7e1f1b1d5aa2d917642c4e9337838857ec3c1ea2cb969ffd70; -0x525202aa8be794c0102dae19984a381b7c710f5aa5bf376dd7eddeebc7d6401; 0x370ed2ccc395005c8eef1abffc9e41c64bcc23a2c159d051c0ac7d3205549053; 0x18714cea2bd47f4a5298ec6e8659378b977a71dc7d7c0905cc5b5d950474c3a; 0x38bc3e1e493762e3e4fd7af8363ab9f1c49150980cc5b926585c7f7f9e717a; -0xc66c126db6d5dd936c57819d9241dba68a96c7e7696245c5d8e587ffc20a7d9; 0x31ee4afbc8d93794a7cff822cf797fc6456f1d472159bd6ca01a5769b03500da; 0x4701730033e41e1b74c19c104603016abb0420136ccae9b28f4358a81ce8194; 0x59b46d192bc0ec9f1e400b99e94dd0915b3f796c6d37119e189e5504d52fdfaf; -0xf44310534a813c56c1f34f649d0a0e268769c41ed1e0bf5b6e347725966254013; 0x8dcca29ae04d7cf1c15d5696699f11c478e953933fd10489a0bb050026e0c6cc9; -0x1156e94f33dee62d65467f897e2d2f411230850a891ef3fa979f89ea86375782; 0x21b815cd76fe3432a07b91fa3964383994e7fa4ac802cf52d5ea86a1f581bfd0; -0x7e4b06c6a679c02af4ec92b7707ff1f4aee0b7b89ec7087f0d5d258c1a3d378c2; 0x185e1e7a787ff33cef167b759ce8f16d46683cf73871e945f55c301dff08cb1a41; -0x111d494499ad8ab888231ad3ceba9fc58e4a2b02866cac481de60a91d829e9cbd; 0x6480822b1648575ae0f8ff18ab438c5accae3898b05d17716c927120910c1f6df; 0x3db4f69f8415eab4e880b5ae7169c2cab52d101afc2eeb3c12dfea192b6edf7; 0x15d9c2b0d5d764bae0ea9f0c1c9ba4dc8b2940a6cf761cccbd56e05afd9340f5; 0x8f139d22c99e97579331656263dd66a1e0eb8a1a55bc2f139a55dec58ec483de; 0x337fa3846204ea6b8d89dc3116d1a3353a011df5199fdbc6f1ce2e75e272971d; 0x58f0fa60965056b47d5866c6f188e1a684e72882a7454721cb04982eb16717e5f; 0xb62320bf023f40a55ab0406503ec6cfb445b7d943eb161ef3cb10bae1bd09eecd; -0xf319ccc0b0b0a22f7d6186268a3953e964b2f2b078f5f666299923a25b2414bf1; 0x8be1b96914b14eefd7a642135d25301ab6ccc32698a93761bbe7e9dd60267272; -0x706123d0da59cb23b30ab41b2367464060d78d1322fcb051649e953055183818a; 0x14b8d638795a6ab0b42370e1ea7112dbe2c68362dcd2c497de4341a71f79bf033; -0x4d349af91ab0cc7b294fdb6b00dbeeca7d0b6eb2bcfe231e688130c6dfc0461; 0xca31fc99e24fd62969a690efc4a08e8c1213cb567558c4f815c518d02f0b673; 0x7b10735560ba5ceabe77cb2c34e76ee80229c2924cd21676e7c22cc077f115ec8; 0x3fff93cffe1096aa3fe8304e8dbfdac5a736d2919f09872f380c0b08d1216457b; 0x7af6a3746c411c19e0b4d88590ca1767c2c5d1a93d99159ca51ab3129064d7315; 0xb237d487173bd7682101e6a278fb08cf8e4edccff09b41dd53e99d88c593d7b22; -0x19a1e1ab30d86ff454f844dda5ec3ce6b1cfe349c83e344b68ea4f41e55bff922; 0xb9c6d0c8bfc4ca69889ceef5dd755df4e35c84db27fe729f945999ff0f99002d; 0x17205c6ace1dd2229f085831fbe8b0539c37f0062055846b1126d6b3ffb105975; 0xe25f68fb94ec2481e910ec067bfbca5b12dcde5228bb20a7c3b25f4420f114805; 0x11af18687dcbc8f98a8e7ce741ab7659f8f0a023efdb0f868ba22fac7ab11d5; 0x6e994c8df584a97d02c3ab767ece2c30c24ae3000db999f6bbba9132ef3cebd; -0xccf107275577431b7280c6896733204e32d927c65f00ac5cb80e37d1a88400334; 0x28112c379b4894625c60d8fea74ca3ba61e1b09049592a03c39dd70c3b49e1f55; -0x9a45ecd84a325a15521306f11c5f1bfdb753c34c51131d5fc7531251141fc32c; 0x25850fa293a2a5095df0ca7947245b080b0bf638eb45f45937fcbaf048174cbd; -0x322df0d7ef6c404d40ea19be862e188ad4a763c446a805321bea5045c4b5a8df1; 0xc8f020adb075a07affdc33946f666cad1fd6f31a09ccdf83b849ca1c3bf877c73; -0x855cd212f0bd8910aa67cc2f02b2faf5e65e230f0d5afcd5a5176a7b881918a; 0x11caf88446687258663cfd40a91043aa7edd5394c74787ea315fed4e218b97e6; 0x610d0110912d82ea75c7275fbfea130d54c19ff4b47f517a4e6f9abc3dc1201db; 0x2ba755077702298e482da1383bd271d70dcbb0a2904fea961dfc166a971891b79; 0x24fd14aac003d21137db9850db9c135f0965f43c0e963e3a2051fbc8d777c883; 0x9be66e43d496e303143ddf4df7361bdfe136832b06675af2fd52090ac3841b9; 0x70b306118dbc0420e0ccfb766db5b47bf527d2a3a9d053a7d7ab1941b87bda5; 0x3d8561fd18a6208e1595724600711e8c330b423d25a55cc4417cf641c02a220; 0x3cc953990018b318d9f4f08178cc72a8a18d96788a22b311cb7004c033d8e61; 0x1fe397cc56fdf0c067ff142057e0f030c4f34596c3bd9b3bfa7216a630b2ce4e; 0xedc5c566cf9b5779cd5a7080ae24c3f39180db5b65ee56060ac04de1ec60175; 0xf45b66c14c6eecad17dc24ae4d6230faf47a2a9f2ea049c943e068f1bf6c012; -0x14d1fec8febee08c85a5903d190bb71ff957cf248f127a2ed0c0b51515703089; 0x7756d9e6088f6938a63cb574b7d3cfe74dc65ca9ada15bfcacda5e9925b3c64; -0x2aa5c90d786088fee5a9fd761aea8970c091f4ba636b340a1499984d18e60b3; 0x7ab8416aa5ba0b9b11516c0b1c181a604a7b6ede2a31a26ccfc90768b7b7b25; -0x524da0067e26b5a84d6ec44374bc03ce516c966bacfd2f6696b5a4c93a9ffa4ae; 0x8db71200b1f3d30cde34f286118772b4ca8a48ec77802d8b41341b7813cbc41c; 0x805448d807957c2806beb4be5c85a457870518dffacc6c875489867864cbb441d; 0x40540848996ec1f6ec009a28a92f6e5a50ec978a07952d23bb06daba834e5b5c7; 0x4ac662da8525fbab8a83e140d25882a99ead78a92862b3919db1758d801d49; 0x261afc36cbd1ead7e5129d95e7c63010f5cb421a21953168eaa4a9653cfb7694; -0xb65fc11b72a9ba210f69fe3e3df5f4dc3cae6600ec55f9395dc32998f8297c0; 0x3d7f086c139a86363589326958ca3eb6d208d4102c070082890a78d8963a96ff; -0xe673ec244eb704d71ebdf747357273e4a6c63192ebd92b60667d1fbc3a9bb77c4; 0x5b010b2b6a6751c27a8402e15f5faf6018a2c5f0a612cd8d631b7ab16a433ecf9; -0x1cd278b28b9586cb449970880d8be6ea1d63f8049d132a1bfbb4bb9cbd9dfe82; 0x1b7ece4805c7165404ee17107ed11d862e864180892918b6fc720196e53e6748; 0x7723493b913d8e8ec564db0214a334fe787ad9a3c44a9246efd28cd4e60312054; 0x44096764a4b241de238cf63a0c23fee4ef2551121b9bc8610fc01f1384918b10f; -0x26762c998c53ce16e69643cb8758d0065089c93cb14eb4744375b552bf1f6e71b; 0x425de087449f231ba6bab45bcbe0db00b1b43cd5d8608b64376fffa3950d4d3aa; -0xa413c8de102bf74733b785feb279328991c4f855a9ce8fdb2976f8f9999411e9c; 0x302e1c1c0f3143dfeb6b3b80c037852e086ca76d84436ffa969d385518f6ec6f1; 0x618c1dfdd64e4dadb96220b83a6d7cee13256f0cf30f1d3ba4382b748f07fd37b; 0x371cc0f527a34fb85f2f79c3da9edfd2d9e59467ef202eebe1a0a129c59dcdba9; -0x293d55ed0820b45af8d36473a0b6a89adfa8677187438a0cf1a66560e906d88; 0x1135258af8674710b4f6343c42a6f9f694bf54357636f2bb2e5a039678c340a1; -0x5a59c68475b198ba2b8b926302a8580888c94e9ae1729a9cdf7a272c29c3856; 0x1bc3d10ffe462fa1608a5d88ee3b5195e919d375937474f9fe7cf3ddf58a4b3c; -0x1d0e252253f5826adc7998a28d17b2889b347016d054b6883fc857e1d876f756; 0x34c8ddabe873f9411db42a52aab86c85653b6bcf8e567aa1bf140dc38eb143a1; 0x1043ef536c4b75b42348e1720111ea464f18615477675028decd80452bf20b52; 0x14dd7cd5e17fe1f05b43eb5617d64bba559f45cd4c1d0317bfd2d2b07163884d; -0x1770f10bb0bd4bd5dddd9736fcc662a019c4f5b57ed672eb47563a1abbf98a65; 0x147d150d270966710d0946a0145a4b780062a2e89c8d4b5e4409e6a8e67110ed; -0x12c57ecab58672cb568c0e24da4949c183a4f1f8e68910598902f6719bac2503; 0x188bd769edc13a438e054cacfb7d23b23973ca3187deb7cf51a3a77b05a8cb52; -0xb61d90642082376f63a2c5444203c7fad53f9e4bef5b4176ea759ea9e0d58d7; 0x67dfb83698bd7cb39684d9b9b7b304366c1c5089698cda6f9a1cb66b9f3919b; 0x1eeaac511812d1cb5f268633ec828450bca1512ee0605e70fe0ab36c7e4db791; 0x10befc5abb44f7a12d9e157554c3be9e6193d98fa444c5ff81f7957ef58baecf; 0x11446c2ab3500052860b658259ec652e44d60f78a0086ae7b656d700dea1a781; 0x7274dba7fceb791e3251437466629bdd6169d31d04b891a0e444102b3933600; 0x5087a73d16f2a977a28c53837aa291f766acc9d6a85f1f90bae945d2ab5a54a64; 0x114399e043cdff6b12f13512e36906e8ffa34aeaa89624af1c2681ef913715ad89; -0x601a1e0fb9f2d92d1a5f60f42b7da48175c0941a2c02a1047138a15f322bd974b; 0xb107eb160f3feaf647226a587137ac4f08b35ce4b53cd478824c0f9b9f64a7817; 0x1448291f620f424f515808d106d19962a953f7d3276c92bc6c4a4d056f63f18a; 0x1858908bc341d4621f65e92a42bddc5d7023bb7d2a60934fa79a34534c3fa7ed; -0x44c05f3bf65d1160eab05b3bc10e4c407dd5e41362a9d4d2d22efd7b384320ff8; 0x42c911fadf6cd60eadac36b6d64b63e3772b735d1ee9f66293786df05e828215a; -0x756a10e9a5647a77550bd9613771b3c0f986114062bc56b92ebf26aaf615f11; 0xc3d11c10ff1406248dd7d3d55530ef861d4190a3a584f81e06728ed8a512b04b1; -0x7510c30ba7fdcc16d9f5d22b7f218fc8c6bbbe754302398fd6ed6cecb8a4188; 0x58f3eee625faa3c1b6efdf8429daf77851e24b13f9bd52fb613f1b98c7e87f0e5; 0x6643f0d0b9514a2d78b017c067921cb5cddac2094d776c014959233399a9bba8b; 0x900533bff2060300a78f11e8de2d9342b5e7f7281120d76e51ea2e85aa2863886; 0x36fa315b0f881302e84c5d4e9dd00e484c92666d8bafc719ba2b5ec796459c4; 0x16f2c34309502e55587160f4986bafb82337e19fc3c3d42070f96286adc52367; -0x89fcdc7f05ec8e8a382d2988b184807b35d03586e3c2ad2b32d2f4b9a7f2674fe; 0x10269c6647eb9aa8e0b53f9a2ad161a253ba15a2ef58bb98905243a3834f585f65; 0xfe4d9a299a233507fc4ea245dcfd8f5c2832125ede1b934eb01e75b55d82f7f; 0x31ef56fe7c910575332e9d56dfba43f2ba47a2752134f7e46577eb9f0ceafda7; 0xbd54c6c3300a2d6a38e4afeabfb84f1202b40b41774b0612f42d42bf1482760; 0x3f2ecdba67761348e9f4edcf4d2bd0f058e3d056c747390e0632e2734206107e; -0x1537947ad73bf0417560c5970432b3de38c220954c6d17f822f3f802ad611972; 0x29bc39f06f86fa576cd31c3239534735872ffc02b94b1cc92307ee9fcbd6c3cc; -0x8af1cae10b4fbb9d6be0115d114d95cd78126dd90c366f447d7033d6f226cc1; 0x44b4b840e84f01d1f1dbf5f5a5bb685a606aec7a5fdec611165c46c9a7049687; 0x598f510c76cd04e537f0ee343f9db0d00eff5ba21f59e3b449a129e053bbf53; 0xf1a3cb62588d7f07f49fdc417334faa7761bec2a446814a5426a72005169daa; -0x35f06b3e9fef733a27fd6a362f632c389a82d54d30ba0ebc806b07936d2fc66; 0x1e3993f10820233742a157563edd2ead612a6ab0b16e62c5de1686abaae398b1; 0x799261bdc1e2f4e4b7a10c61c48c258ce0ef4cda4c7c21fded7b6e557f49a6895; 0x5ec0540914fd3b59aa116fdef4ba763f185d4f6b270d303e8f85ee16b4db7f115; 0x35ea1990ca10d350e00cf7307fce0befa926b79d7002d678dfe34228b1380e1e; 0x76f8b073ae009642ed837c4a83afef35bee8e8df934a5bf33af68dac817fb3cf; -0x1664206d008448a76b8885178125489789153aee6049a7f498c2599ec7458e94; 0xdbb280c00389377f51f0803299d53920700c73f7fc808d1889a1a71fb49f32c; -0x94f4c0f2b4a75b4e0814192871611f0780bab4e7c72a2caecad32f7c77aefacd3; 0x1d076712652835eb0652282b10ab936ed5220303de6a5372861563c807457b999; 0xd661dc4cfddf887bb2a94d9db2ce51a3f793c79c3fe2759e56e5f15760f2de; 0x82791a96562d9d3eaf003475b59689a22380c5cf3e5a77e092e18a2427940cd; -0x934e2e7d3f37f4827ace7140e5b9ee1634493754e7213993a2377568489e61f95; 0x2b3fe09e284e8202b77262bc8c93cdb9c383e43f108ad716054160f0e134d2314; 0x1a2768068fa35df3706707b93c559ede9cc1365e3fa8b0fc2ff55864df3e074a3; 0x2fe8f0c08025fa72c410941ab21ecd63ba8df8b4a46954be4fe2515683a0991bd; 0x53f3d902f70053d4768cf006bfece0273d9b348ae45b8afc5bafa50cd2aab66; 0x7d835f04d4c276b7ca3fe907d398dc878678113a88bcb3ba15bfeb149242003; 0x37d0540eb27f214802993f4294eb8baf559afba701642d04860fd2d6f690ea; 0x3a109e68f971f5fa1cb46f10bbd0b95216ab3c18a1000874cd3dc7f976a5635b; 0xc956808582ba7c1c6bc847af5035881c2d227d0624c74e63cb8be6c339ce876; 0x282c8b8c52508e8dff8f2c5b021d34980d71e653371fbfcb5a5c118cfa5b851; 0x1158bad4a07fa2689b7ae1e109ad360f8047996e5d641646be63874e1d84f372; 0x133c0dfaf0ef55ef2f66a591235f076d13eb66ed226c1d1a2e76df0c7d242d28; 0x2683055d09324928b089ef69877048b8e729a8d8f7c86a678477e31ed05096c1; 0x2b292edadbae5bd0b51995385cca029eaf1445e09702e5ecc123df175ff96e7d; 0x301e8b5df9ef0e5542e7006fc9ced87895e7f7ff30465aeab301de5307e298723; 0x7fd52d1d2db0a41821c09bf19bc53f257a8a6e928b9bc801482183cc923ef6afc; 0x743d4887c885da712a07c1bf217d3a29d18a2e99bafc13e5b7c634142b6a048e2; 0x2b0e22eef688c9240ba9109056333be22c11528af6f4f3fca110f948663fe71d6; -0x529c04440dae72b95a671e7d027f4bdd67c791b0eb98a348067fdb9b5a7c0b09b; 0x2c4be3b4b101a66b75ea5a71d8849393864b7493f70ccd35f967dbeccbf8bae0f; -0x581d418f69efba169f400ae9b8249fc509ba5f4115399deb87b2e10fe7bc55be2; 0x7ee476df41c943d2abfea8c8cd464ae32a2cfa1ca35ab0b64750304eb4fe68c43; 0xbf3e513f954572c26abfff58d8b017c25d23f01a085a9475863ffcf0bbbb358; 0x226d0632f77ec52538e9ff56c374c9ed9dafe1d9e18272736da2cf6775c265cf; 0x46613bb063c779396b43591d2489223da5caafffb06d2392d4682aa36dc1bd; 0x17d18a6e9e05713d64c28eb7efc665e0582569e27186e848e46e78dba585cac; -0xc07c06208ee20d9997718d0783d11b0c2484a18584aff225acad807880d2569cb; 0x125638b557d00a23e21e4e5812a189fb4b5d96b6f4e152dfd20b3c9a8eee1d4a01; -0xf0316aea8eb5a6664d5aaf15c131099acb8b80b363b5e13389723e15267455090; 0x6be030d8678f00ab9f738d4abb2c08aa36d90b49cce5482822c4c40525c8b5b81; 0x1d0461b48f8d232a59f884146ed4e68b53166690b364286d1a289e1386b0f58a0; 0x50ac17f359c8713788c9eb87c461c5f0ddd1ad516587e1e0d300beb44b2cbbb03; -0x1ca33795ff1a7e7546775e907aa317b584a32b7460b512a4e3f1871d0fdc382d6; 0x3dbb0f4fb552223d149e4042693cb94db04a88c82a3f9fcc3830a4fb1ac1ad955; 0x103bf24f2ab368325f63b4a35416068c869ab69bbe55de070167d0098f8413e4; 0x20bf30f4afa73ba8445030a4c50c21e31ba90906e72ea630298b5ee53a2a3617; -0x20804e9c50b05cf67572e4eb476d101932fa01ed711cd81feb8463bd683ede8a; 0x4e846e71519bc3f9d296efc62b91626dcdae3d907ae58c0fde2eac6df5a0f1e; 0xf53cbf69d808f4b53f189a2e02547b62380083719c7478ba9c9c89840af8ff; 0x64b06eb0d637ffa8a217a42db9ed133200fcdf074eed40103adab4619ce8412; -0x801bdefcbfeb6d79e74a0bc7e24aa37d716a2617bc0f96a924a9893b2f938b5; 0x492eac43b76878006ee8fac040c792283a01e52073d4926f99ee3f879290feb; -0x28ee2ab9b03d4f08eedfc77f713387b55145fec70a68dc252139ede6159ceda; 0x55638282200faa59c30e0788e3592bf613f16c36d7c6435257a8abf43ac1f956; 0x26bc467b2475e5d70ebc0729f5815273403b179a6855d6e8463e4e38f621685; 0xc53d9d23c50d5363324a22a87c0b574451b1e0376d82555171593f3d1b3338d; 0x2b39f4c93eada3b77dd18390a0028dc3ae13b2201629de01aa61cd58d4f732d; 0x2e37677aa37a04b583e0eddb0208afa0a0ce7d8516fe8f46f5792e49b5adb66; -0x4742a6e56d289e06bb7f630b7a53056dd3b668b0b1b58e29a6b338b76b5ca4bd6; 0x1166c1f3527ef2686d29eea130c45c06144601758b4189483bf157229b7b241843; -0x1e48f83831ee3110c5f768a066142d6f9df6b55c95c1099afcff253d03415552; 0x34d6e2a1db6b74623aae6193a86a9938d26178bc07b2137dd7e23269b9096f63; -0x148d27c5287a9e7f1020be03eef142e80b2b21cb22a7fccba094b4aa5d793947; 0x28838092e1f384e82c4dc0addd52fc2427abac42c0118c11d65b2f7c8f97f1ca; 0x7ab5e776d86fa756324a627fa3eb675686775b1f85122962184c880d830e0ed; 0x1455c3c7dd902e1467b5847a6fa35922e0dc920f21c5950d7ee6f4f5afa70575; 0x707c6bde9038b830d969a07009633bedffa10017b8ec80fbb33e638611af324; 0x249189c12f976a80ab33d605e7c1efe2893a6ad553758016427901b7ed3ba0f8; 0xfb90976fd6817b9cbc3b67a48e511df284d18fb5bc638d2b4d7bfe88e2d3617; 0x2c48391e99500e9838cf058b14ddf8839d7f3734a953a533490d1b7a95338b0f; -0x9fca4ee7d81aa9e84f6579c195a8efb9f5919b7973d21ea0a35d77eedd4462c; 0xb2a71bf434f58a0d80df75ef232f6f0255a1c44cfbc0d05c40a2b3b87d7066a; -0x11625707db6fe55c8e5927706a1c50532b22431fff94cc570536171b1d42b990; 0x3cd434ce6bbceb352d9599b6a5cc4107a04bbadbfd0809e15ef4fdae8e84ed20; 0x8d7f32f20ebee0c0cece70030e42bb4fb731be058c9c097430e7d95f86bf4a7; 0x509cf6234d1792da4fea804732e72fd2a0ebee7379f7cadcce78581dbca2558; 0x61c36ae297bba9b85b62819593fd69f9bf1c3c8a554e5f20af5ece4041309aaa9; 0x9101ca58362c362181b7bc63d69a1c68c9c10be84edc29a5938bb1ce9cd23d240; 0x78bbd5d58ad7f49c3b727fe835b7d5ece8edbf8d887d188bd696d6924f4b8b1de; 0x5d1a90b9465242a9e35731072382c4552af6ce8bb4958c8744f992821f0288cce; -0x7d86871a6d8bef8abae4148d41cc6c2b6b5abd177647ad6888d10dc9209db801d; 0x2d859c5ef8c7eca645d502d06ac1dc2eab5f5dc10aa43d1878d7414f9bb77e1e3; -0x23d8dda6562af3963979c170ba6aaaf60564ff73591e52da1f05f5c36bce12b0; 0x71223bbbc4671a64d1a8531b4e5408519bdde1a8b1517ff778a3c903d2056b1; -0x19d79a77a8ef419f9f26b1102b61257f2b17bd3fb86ae07e0bc3622e91c25ef9; 0x3d7034a93e5d1c75321c20b76898a54a7ce751740f7edbbf2f8776212def890; 0x246749d0b0684eb7465c919ce463fb2c0ff6a4204636dd5f5851693bc3cae88e; 0x9deb607565e59d9c621bac0cda8779c0bc700f98c0fe5dd7df058f5daf4e4762; 0x168d7bd37e8fb85e64178934bfb318f450f79b0a3f63df2914ed8a94c6642a40; 0xfd4cfea39e4918e1b390683faf6fd6b029dc67964ab98ea8ff2832d072ddc2c; 0x1f34aee88c20c738faea28b21fd2516c01638f11289c640224d16d40845d59372; 0x4960e2d00597aeb6d27527ef062e750c7a7109e9c8a0fc3288ef663f6a92d0e52; 0x2ef57ff2b29920901dced23125d6624a94fec2b503f1b4d5b8fb9aec90b522a4b; 0xaae2ed042e012d13aea94e7a4c7e1a9a1d308a85b5392b28c10c2b652ebde3b9; 0x8dea096d157098720f491bfb609b72b64bd97eed8d5c82ded4aee5f97e0571; 0x82751e677f71439663fd9d445bd8c55897622e3d20ae54ea64b5e2bba05371; 0x1c14e78ef40c3bfd4515d509dffcacfb6d02fe75d5d7101caf9449acb422e507; 0x3f3aaff7990931f05b4ead237b0bb167dd95f459093432cfbcfdbd8e3978689; -0x5b3d1978d205d4b689ba3f8384753767d5adf15907173c3d98ec2d04dcc92d537; 0x1f14a44910ccc3758bf4eabd585c8f01828bd71da12d5e80c6c9c73b8339a0a03; -0x1774952b719acbb8d9a350abf711addb52f316bb77e53fac13ccf86c3c6251e8; 0x6c1e949e83029f3eb92869b63da82a68a2730f8fa4e791b7487895e26d509e2; 0x1c401850cfc9a868df2b8b615344db03ea8cce16b936ab4ba39d65863e5ad858; 0x15dec0a86fd837828c7fad22f9062a08b4efa0f49f9a6758f87a7431f42bc48b; 0xa1935a1252059aafe961d60fe54a4d8f044af1ef6202fa5636ec966d56f857a19; 0xbc5f72eb201f113c6b555e689a1eda9dba725aec029c056407afb1bdb13441e1e; 0xb88b5b20a404db66a5d2840d1957ce0e899cddb39c0ebc0cc27ebabebcd7df406; 0x7e390a46458b832010e9d857952c39b5ba34b30af8a40a63a8a3bad99c733335c; 0x4e0a995147c0e6ef093e98d1465524f6c6fe80540419f6c979ff3faa80b62c680; 0x33b6fc5acea73a1f5d6333dc596ce402afa52fb9fb15a3312d7f5986fb99f2d59; 0x5f007a91217f72d635238d39a6241fb51bd4f93eb1029a3c1f0f1b1079a1270; 0x2b6848bbbd23a3989e827d7e93fcc0defa63cfde8aacf8b933e36a13db76d19; -0x7146aef6fd407dac40689b689e00a7619545840feb6127010e35817386cc03c2; 0x49c00264e0843ed1f31b04746b78a1cc3fa277d05a1c272d7c8ddbd52237928c3; -0xa4b5388f4e9b5286cb6e32df1ace34470d592a3acfe8b3e5794d4c6728508abb9; 0x3f0d1db819144bbf276e23f16ddde7c9476354998709f50a746511452b721978f; -0x258e4e4885c6739d302a8d7f72cc7d75bde9ca68c600eea517db8a438791fd708; 0x35db6bca5886364c5a95c6be24d867cafee027beb90b712640872a1afa9d43ddf; 0x1b2f2596e8bdfd64e717809b8bc36b5ad3cebd019d3cc1365af78e4b80894e3a; 0x31f3079e66f1e74404babd94f8b1ba96502e49ffef66a039c72e2d3e1d14abdf; 0x36dd745377751c2360e64aecb5ec9e3d13ab835bd1165e3c5bbbd47aa54d4feeb; 0x34b3f25dfbf6add9d01a99b7a293c94092d6401f86ce484b4936eb8499d324fa1; 0x32737b75f1a1b527d2101dcfa87b00bd13ed129d5887a05743a5bc958895eb4; 0x54ab7495fce978e408ecc3f83a09e947800131373d8b53e3a26b97042676fa3; -0x27e36742d9115290ed40b23cd2f35b71de4b9df3b4295dbea36b6a68e9e6019; 0x87f22ecabcf52f587c4ec2e9b9579795f41eaf8d8ef1e98924c09012fac386; -0x96a2173c9632f961e3b131305cab546d090b78c424b0891d96e50f829820383fd; -0x1ccef5fcb7072933c490392a704a053a9457c0ec1f50da5ed61e85ed5eea842b6; -0xf1901b4353a155d4acf4d6fb2f447a5e49834ea5f6e04a6b87e76656907e02; 0x3755d298cff407441920d83aad25ee3b919aaf339aebe0cc5a81514f748d8d9; 0xa94ff42d7c4791781aa3fc034bbddb93869430a1df0d3b31a70ab3cc973740b8c; 0xc8226d179bc951d694f4778a73f9a8022f062c18554f4a3affc40ce939cdf9762; -0x19051d7b54c75034797a1da7606482aa7ffdfa71ecb26caf23ff703e4969ead5; 0x1922090acb1871a9bdb41d1569583d0d84a0190b5417ede71534028a4b41ab45; -0x8a4f0b27f5a6522a827dc4fb65d0d74f4fc2b6a97c76fd6bbf1894bdcdacc1cb4; -0x16605cf7f11153b16eef89ea6bee3da5cd48a063bef34b6383d23329bd6c641f; -0xc74c5bfb393e4ed22565ccedd65aa8d6572799c0d3be81a44886354c8f7d468d; 0x9e553e31ccb0c450bd4d9f39d2d3119c5800c9c777575c99c1521912f0b8af1d3; -0x5ff481dcbbd151901c5e11f9144f3c3fb05afddc71af8821756b55be58b6396; 0x9124a697adce36e10a6f5a0c8b259ad30ec4543c6343d1048f978ef999162c6; -0x160c3313684d22f879025ea7911b801d8b6f848653fcb5aed5cbcaf7364d717; 0x1415a20f7a26c3ba5157f2c5bbf8e7aa91ab5cc3ff91d91859e4d4478030515a; 0x803ed0269ed7fa221d84db544abad3df6b982e85ac27c3ffec212475d27440d57; 0x4d42ad6d565ad97c5bfdc6f9e2c2ad2a2b725c5e9311c6dd10b010f79ac92dccf; 0x20d343f7fbdd16aaf39751c14db0fb9dc532b96b6dcb106adf16ea10e5f9a863; 0x21d86bdc9137dfcbdbe828e03cc17e469f6e4e63848a36a46941e017c2a6751f; -0x12c4115c1cbc84a027950ebd677151107278354e79ee0f7ee9e75b37334c3dcb; 0x251518179dd6e523c94847b1e0a4ed94e49a238693d9f71469846cae74db957c; 0xe1111bf9f60c69185a156f622a1a710c24b6306b520cfd33368204a9f45b89; 0x2226f1fa02df94df7041249fb560d746fc0ddda92b7ebb5ad6d1431a99c8d22; -0x155e200c3f58f66a47ff62769f71c6484e3e54094b4d032757a9e5e57e449ac1; 0x13cda5d991dfa854d59fa21c84b46a85cf5fb6a303cdc689a8e1a3d60be3063d3; 0x13dc65e5a5dc5314c67b9e8869c0a13bb251641bd04aeb2b5ad5543dd282db514; 0xb9d5fe858e489584c16aa3eca4335f0b042294d437101768acca42c79d2469af; -0xbde8f83f048ad36134ce974d53ba5bc3cff929a678754b672a9171c743a4fea4c; 0xa3153eb513a841c2aa9252b13d9e9f2dc86d88b9d1f47f47ac941a1476bd48632; -0x117c5ff7e15347ab7f9efba0b3b8f714b773eedbaf451be195269d0a5dfe8530; 0x8f4a07b6280c168ac045c1065b4eb8658031160cf7ea1f1f01bd20f4571351b; 0x15ce6307ddd5430d422fad69b2652b0c2bb1dd1803f1641aeaaa9e0862ecd243; 0x1b2b173b7f05d7cb8b59783c6e63f098937ebf26352fa35a7025d59dc5d1c9eb; -0x3f3477ea83a15209503146d2e20430cb745e23133d9863d2689c4e41a3c014f; 0x4aa1d73ed6dd20926d4425c5be8e5fa86d577a075edadebe5ebce5941bb0ea7c; -0xbf9e4fd06b9eb716066be224274a40eb673d8fca5da41fde911cf3b877646b4; 0xc5f4fadf7b87bd1d39676dc0bf81b39b38c4b1bfc99aaaedba11a26db88c59e; -0x74486eec46991f9d017ea9ad9a26cb4f6111e602c261c35d0849861e7f94c988b; 0x1841b061b2481bdbc2c6369c7fe62c93f49a6710a2cae604e227815439ad57f502; 0x89831f8ca48bc68673c7b3a75ee55eafdd06a6c6c57d6349edaf29a7ff62cb0; 0xc2ce23b9534531b1702988bc58b2c70d77ea642e4fb525ed4464966effebc1c; -0x23a592f402175edb0d6d0be1a30fbe2dbcaaf1676b892cfab53f90e172aa7df30; 0x27108be703f61ed0b808252d6f2516f787bf1a8ae4363a91e30628279a53af360; 0x2c0147acce05c7b503333d0280e62697776fe720ed5972d2c6921ce41fc7f8c3b; 0x16e461fe53d9052ee5fbd17ca1486f247b86d4f522dd5acb74850f973b3316287; -0xac7a2fb4e14456b09ed99a5eef7bd53e1d70ad572f79beb95db53f3d5263e1b8b; -0x3d3f558aab574d4e334b83b6e46c80607952982ce68396feeebe383071500ca3; -0x2075eab0fab78fc7c8e5a87ab2801af39597d1e3bc8e363cce8af50e60206d3; 0x1e6e6e567ed8600658c9f8d0a1fb72fe5593be3f5d025685aec463fd72af927c; -0xfaa2ef4312733e6a5a90fa5ce304869e271eed1c5e0275017f568b024f2269d; 0x7a6a2482f2548a4b86d5c286f7254387b2e3788c90caba485982fe17ef96a40; -0x9f9e87a595cd0ee31f9a6bc5c0ae8adc0ba8f6e09757437a0bc1c8ef68296085; 0x4bf455cc95a68c5504453d38d542535f6a8be5e3e5291ad6de97bcfa6b0097307; 0x6f6551849f1597490ba6aa4e5c8b9fbb39b4de2b3ff0727e8e79da28abe611468; 0x5d0e96d6fcb16338f0d587919568149581c57de99c673ddf04d549701b50e1f4e; -0xb1e8b0cf39da5a6db7e7acb2d87045f5b06c54da98490cecd16b838e519e6b8; 0x6086cfafd6af19d94a5f8524983026b54ff9d211232aeba23596eba79bd2194; -0x6d8f391a3b421a9c5255d110ae6897d8417b4349c42633f5fa6fd25aecd3118d2; 0x1dbed2dd32c644e926f7f6f8c2c690363a333b92a80f7547d5b0775124cd19457b; 0x14832fe22ff05c4159e2b9739909e0a1b7b66b4ceffb35b45b19f93d99a99318; 0x17e9b242d315c4f2d2711dea6e7b5cdc89259b104e93fca3b5665b2196a7251; 0x9979216be5f96957e1b8697c45ba7eec2e3c9b24cc5dd54475f89e7cd58e7a173; 0x5fed907ff65484c617f58dfd5dd5e9951570e2791393212d28bebba926c515614; -0x7386421f42b7e68ad565548756663b4ee29f56aa4a7a6f108d2910845284b1d6b; 0x2cdc4c5b4c0b07f18630b04e14afa01450bad13147c97d76a0032e8850c45079; -0x391c575bfbdcd4377d12f78d10ed56f60623d81c898376a21e3a21e70b7b77448; 0x7328e213697141405463e18db0bbfbaa9955b9e1ca56b095805bc8a70553aee39; 0x7a81857fa1d7f353ce5afef3e8126b5c5c1bf9773d362c80e75b7a27b2da4d353; 0xa0d4677c9ec0dd8b36ff399a54753b888abea30318d77bfcb4562dd3437b530f3; -0xb91126843cc42ac4d6e1defbf5736cc1eb12c4d2847ede4fa729eef2832537; 0xe3eb19f90508f8c1517ae508204fb77f1318d1db16645b8dbe13733680eabd5; -0x857cb9e7209c61f4d83a32088c7b186027111ff326a437e99f5783af80d98c3f9; 0x2ab197d653fe8b4e2404cab8b2af9f3c314ac4d15c938e3c6dcebf35f8881c5b5; 0x227ae2467c4e2e03353211c8945625a51e089c52031a473c78bd67c17ee52cbc5; 0x139f2a2f776b7db59f858a3a47f32fe8663fba5a96c6eb03378fa350a4a86644c1; -0x147f5ca7c387373e32e7f99ee4ff0d32a05b6ce7e52e41f3efcf62bd78c8789; 0xb0b2bd1854c08e682004244775ec75fc517232e90725916c9b102b3ea8a827; 0x7bf3df3dbb43f10b387e6f01df7c2b9338b927215050e47296991099326335d36; 0x10b9bf5ff89b2b8fac393d961e12afd99e2cd1e850266ae5d6ce45c303807d7644; -0x5f6a410aeb9a37511b1a53c2733700e8612bfbbfacce1af3d6475f287cc62ab; 0x131dfe112f55f6d6926f4fc32b2989645da5630600996f1ecef44b163583f1e3; 0x20a82974bfc6561232f5c9b9a298f8a6bf7ceae603fa8334236cf746056083be; 0xd5f65e7abcd038ebdf39020b78fd30d483fb78bb965101d83f6af3fb1c1b03; 0xb66a7942c57c0cf45db73badcbb2c6950685a23805be87a7ee4720780cd60d5; 0x115e0fb00ffa57dcd04c4ae0d71f1c67d217276f26b0138805956a9df403f5bc; 0x269b192622b1e7e79f291a2f85f9829e870f53bdf9927d59c5c6843d6476df22; 0x280028f1455ccea36a1f95aa5ad7fa2a1505e19a9b4591c2d998508874ae7ef8; 0x425f67f885f28c6c0a4b7c4212ccd6648e335817d29160d3f91f4605fbc3dadf6; 0x29f858ff5df753f635a3be4810410f7a5bf1bd0c1a5e481eda7d222c95a190d52; 0x5ea2703b87eae55088c0f4727a827a9c887ebe0773b9e0095e95c10ad914c10b3; 0x2a5a907caf34739b5500331b048ed76e6b292ff31ca5b4da14cca2d358b824ca1; 0x6e7e978066de96ec553422c9289d29462d16adcdc08f8202aad22e8bb70bd0b66; 0xb5c81b6dffc0ece852c97c3b946e8877803a872e891d6a43cc7aba17d0a493a88; -0x10c58f8e38e5973e23c301760b61edac759f43c9cb927655d60c0213366d8bcf; 0xc788ff04c55cb01bfdfc121b636d3a1230ea7d42f837f5139d9e00801676ab0; 0x715c2938919dcb8a2f92a69587d36e8d5855e34088bc4755a79cff8502cfa8a; 0x5a6039afeae0565a5ff5c5912dc3f7e2937dc5bdf315cd2af0e0d71bba39691; 0x2756b153477ffba44420f7fb863fcb3d6471465c7d8a8fd918ec51667729c58c; 0xef668af81e931d226b7d1b46e40901dbc5154f2b3cf93d0af6cb06259fb0749; 0x253820ebdbfe0bfb7bab6eb5123d09950537f88c7c879e03cb5621ed4b73cd15; 0x115321af49343085893932056e8231c98c00220c12016139bc9e8e22f6227511; -0x587549be86882a87caf0b2afc8929efbb80aea04f9c403753639c2eee48bcec19; 0x379652d0ad2ac73c718961a29aaee578930c3804af52050bd7194e781170e4f9b; -0x52864f4a750c4bde4086a19d266c1ab5ddbe61d01c7b2f8ee3f0e17d2c69e95; 0x94d2045ec5f49ff279371ad105dce4c80457601d39b6306f70de9f14fe4c9d0; -0x265fab4f399ea56835558d45e2a6fdbf9cfef59b7ae4042d8e837206205fc034; 0x1e0c793b3b5c696eb091d85c27d97a906b4a79b44caf83f600d79e4c6032e23c; -0x11102ec7cb072be2b6c6ffaed54e5fa8b50013dde6aebb6dad79979db0d28263; 0x3f8d0c6160d25367e5462a5209dee0fde6a0f5fe5af4ae15a4f7b3a9b1de631f; -0x3041bf8ab6ac736b04d7402fd35456560b3f93ea2f1dc38f5073a586da358cf5b; 0xc38795c9a9929b258f660aa6d295ee5b11e0218ca9b84544699d1706dbfc1947c; 0x440bac239086f64dc001c62dbfb1d1319daaabc7cc589c9ed604e08ffbba91837; 0x285855801a1143283799c60cbb6240d09e433d906132d03c4ccc875004cdab509; 0x13b49bb6eaec8f56a264f39c9e88eab664a17f8a6b3620ef25b8a2973df668e1; 0x7c60e74ed3f985890d471fa3cffc10b16e64c4ad820790661e0e1b6e0f7e031; -0x354488e300c984a4ef44ddfe4da4ac786508e0f13d0461fa376560b61e631765; 0x4b68ed4bdff6f3af18fb381a1219b16c2e5aea9db849d7e8f11086509c08c1762; -0xe09d30f0f16ce45e469ef4fb42a732c4e8bd56a91acbe7906e9b6e97b1b6070; 0xbf9ccf58fc52e9183b69901321417248de1682a3d7320556e0e6027a4b2396; -0x215d4f0c658f3f7234c234f5504bb83611f4269483d8f7e681440892da012bf3; 0x307ebe57bd41ec90b42cb79d62a4d33d61bf0909a6471f16f54ed686a96b764; -0xa069b737b6fd11a0dd6192e1f8c03fda0d8bef7a22d3edb215886e95997ebd9e9; 0xb849ffe4fe3affa82f687d6f32e9317f7a892076912cbeb12288cd3f36b116397; 0x1a84c2058e17afd3657ebeb3bc8c09c7698fec173858f56c5aa5b3b4a4ffac66; 0x765a6acdbc31a47aef000a61c0ddd5070bfa902465231e0a4ffa6d122f06a46; -0x59944e97461c9b954b089f08c9828058bd340c5c28610f6b50ccd7dae24ec7ddf; 0x1b2ae5772d82a5ac82c985cc416451a7a05095cd9b025e6dca00762ec175cc2780; -0x4d3c666a1505576cd4417c4ef64de952d92e561254d007e3345c3f51fcee227b; 0xb5531c167859003506a7f2eb5afc197d83736398f7e7691032f6a6b5cd1f8f85; 0x60efcb3665cb75ac1c88ddd6260a8fb2da42a275cf69cfcb132e256878c51a2; 0xab7090285e570d75937f20e9195a36d40fd9e0d9d769fdbf197c729607de0a4; -0x2952c957ec9d1c03196ed148ea82ef202dd1d07c22f6ede5c571a4e42b145a4; 0xbc4649dd80d259e36fbf4870358c3ad308b375306a7048f09c95bcd2e59b337; 0x1a15a9d0e62c41f00ce12aee8246df1c04e0e8a3da4028e241c31ab546350536; 0xe52a20af26fb76946a323b2d997949efb95146f4ad022fddd2b5d0b3650135a; 0x9f13561e971ac9a3040902a4517ad421c5c5289db7afca2991319ee7a6a7982; 0x21b67fd95bda663e535b0689d0bc88955c097c15d4dcc8e281b31f959b79d411; 0x50882c523716934566f432cc6980b79f3270013e4b0ac8939c87ce59728b379; 0x1211952e97cb335d781edfaa06559182e431e47b94720cc178e09a5a61fd4bbe; 0x5d6d6ba6d01437a7c7a27ff1d5b04ffcf536f93e9744d0609dcf0389a9de37; 0xa6e56f3a5be2f52bf892cd46128f1d4edcfac3a977a4a651ff351a977645161; 0x628f3a578692da99abb44cd4d4b5f7779ac023da7f759c306e5a3ce655d4; 0xd76e7cad03180a130880537000551905b1ab27a8d785ac96ee753c50b454; 0x8f913ef902727f3026e91d25576f0972787560e1c5e46f79abd70a519898a38e7; 0xd2aca7b6b6ca5e83ac212e6748687699e496caac784dda3312c2c1caa4389460c; 0x93e954f681e5f91b94c67b4157ecf4a32f6521a3bbadeef09a6fd25a754337f; 0x1662bef42b502cbcb6638b23c1734a3d942cf3d8e07eaaa4744e29ff038e1df8; 0x3dc3a4c9489d38c9c58ed0c6f76c9e4da2efe98f4b65c78be574fc60e888e850; 0xe03bb94fb1bb13ef7e5c54a94797bae2edd020bd6705998f0d085e921192e9b0; -0xbad101df255f26808abf768e3d3e294d72581c57f6788288246ee1b3ac9edbd8c; 0xa9a470607761e72a8fc0c02af7d1b2c272f6e39a9cfe6895fa51e59a72d66304e; -0x947d3369dc7c4267c1b28b2bd46715b65bcdf63db2d5e359df34ced62876b4ba; 0x6ff09ef0bb7132f71ff823eba71b9baacd7a2ed56c1d122fd00932b4f63307f5f; -0x20363119a3cc9bc4fd9415b429e27e8b9a533220d3fd88a7ac8cf145242c41b5; 0x69383bfcfb153cfa8f3e143569c5ae5ea5a73d7f49a0b2114d6c62b1e1cc608; -0xb4a9c4447e9e1860428a15164cd928776232ee5d2177f39495e3d2b256b0a279; 0x5429f4371859e64ca941c8f2306753df1a73bde0f96997bd748919fa02f5968ba; 0x144ce4246a35132ab0938543308374ccc7152f3098590108d44a9e3b531966b; 0xb0e3540cc59260deb9a624df163201e919e642f7f1a85f28a442dff58c8f056; -0x89a690defd4bc8dd0e0ce8a9c05d6a2b7b8fd38a21a357f1aa82144330b1c840; 0x49362ba2e70910244e35fbb6c5cb2fd499f5e6a9b91d726e8b73e941c5bc2af03; 0x3740e3aaf0fecfa84b2b7f7da3494b68bb91b1f48df4ca9dedd16f11c8326f0bc; 0x35e4014e4deb52cc01ac0b9ecf1306443ce3f4d24aa3c1ad9cb43b02972360960; 0x4e5cf2e50270d4b75d4290e1898820e0b5bb47351503704808810d3fd2399c4; 0x26936bb003a2f50fa06f74cba6d116555b061d50d632edb0cbd1c0090ff47930; 0x6946a91590eecf07455ff99387c231df873eec89032cff9477bbdd945e290e4; 0x538042117abd86a4272491b299eda8c3b18e098dfe67dfe361993a33665cecf4; -0x546b6cbdf6f994222bf9c902335631fcfc8215698f83a9f6b65c3b653a7675bd; 0x5a6d109cd157ca59e792522f510f515f93816b3f786e70819f7280ab9842e372; -0x165cdad53ca4a5ec6cde6971eaaa4ca617b094ee64ac639bc16d31e37cd3c2; 0xa35e26ab1fd722f68014cf00f599fa396da93b4211c7e01ed53fe86d470e0c; 0xaf16ad4bce886863e6f199de947109481b225541a889c9bbd3169ab46786b81; 0x3d634d040f2bbbcc4a98f05cca8c713563a39002a1380e2b59dfc43ff4fb7cd6; -0x5544288f7687f2010c483ca9501541cfcd31a9c1e01b13af892871ee5c2421de5; 0x17772c6937727edc79788207d2c09c501a9f02a69129945bb46cb1902a28e0db5f; -0x139748dc3225844c8d58110e10c48e874c92100fe3940ba9f4f2521e3a4e2c2e; 0x177392cec7bd35d1e82c8d543a5d1376463bfcb6985fa2af2b0688880f138269; -0x19b56e2f32ac8a6bec2bf5c68d1de6851ec851a074c7d45d4527506c8860d91a; 0x626586bbc0c1bec08032d34bec7dbab40a06fe8baf5e9329e4a7954e24a13af; -0x878b50974730a0f8090d1951b9238e385263362b74d375e3decedd29e596627ea; 0x17f939b7e8409dafe318f8a9a674def1568342c5290fda822284bdf176b7fa4452; 0xc99b356e5b868b9a842daab15bf9163da19b4558b251bf6b77ca2ad1a015543; 0x8b19a7b8980b6768ad8bb96a9f4d13305e9e618db176ed468798a65280bc253; -0x4ed3ccaa1978335fdbf03dca8d0c524b08150087bab136a7ad16c671f2cf7d0; 0x4b1ba7825a3aca29be5735063196ea4cb4146e029689301715790a273b5d3c2d; -0x42e09fca9986d4b6e58f7ac35e3efd6b6a8067a42875fb4a08e1d2088c3ca54; 0xddbc1feee973c2ac3f941a31954c13959b51141d650765e20725d77ec050e82; 0x2d6a28793f25a4b106ca7270b8435a397fc58a1f9f59dbbdcbeb90b6546d96d; 0x1909d2655012a47146774bee282fbd6c3e13cf99712a7852ccd6c4a68506d6a; -0x8f3d7ef5e047645b5cdf3337d6b242b67b48fb27ef63ee2b2cd84438ea87d78; 0x2d62a7adaf952d562fc3687d2e2066a7f7bfd46b0c19c8458c6b5004a0612451; -0x9dc56987be686180bbd221cf2681ccd24c7bed45df384861b884089d6f6a8d403; 0x8967c690a3f215984f4d82b27aa17e0abc59e85a7f35c9e025d6744e8a94ff49f; -0x26918b525ea90d3ad0627d110afb1ecae72e4f3abbdd263b34eaf328c57fcfbb; 0x1b5568b57d34ba17d83b43a54f92737e4c118b4bb8a2401cb10d8c3fac4f7d2c; 0x617f6121fc52f47a4c8124195a5423cf3d742c280ef5679fadc4e0e23d7712af1; 0xb99483aaa784c5f264000d2fc75c6efaba5fe5b1f9daa5d6e3cffb8b4c4cdb664; 0x15c23069411e8e459e5b620c2e7dbbcef3a7be84bf827bc8dee509ac89919a11; 0x29974fe980aea048b1ce2e89dce71e36ffadd010500e7b7941da41c797f6b1d4; 0x7ff9170b9792da93cc9a258213641c7e36cd40159e4ad68111a70678a2f200d; 0x15fa848782b712691d6eb432dc05340aa33e7dfc13177f17c710936e40094abf; -0x458acf6d9ba40f8524e6d6841b662bb540242e5741fc78d2ef1541bf354122565; 0x9b95beed3375f85830db361d585bafdac3998f8b1d9448381aa22f0f9b0695990; -0xbb68ff477249372f56ff94cd37febe1a908a327e91a3f344f89ecdc1101d704ee; 0x1be45b919f2afe113b969abda737786f930a17865e844fa50aab0e9c266d42ceb; 0x89be8e6d320910f5efdb56f41b2669fa4fb6c2124fd9faf1bba998dd0aa15cd; 0x391a9354ad9bc41aa0c83b5e6c3790272ef05fa01bc73db72b5afc1500527bbb; 0xdae68ebc1d171687685d29eaa6f4b9f83209e77c9e4532963651243872924c35f; 0x690b6d37a08623edead154c2c242576144b29eaebead6962239a12986dac3035f; -0x12099557359d29855373202c792d154f93e947d2ebbd95d381dabd60ba9f9e6; 0x2bed4d31fa95af907bde6105a627311c4f48fbc62717736d4a0b75b75a81844e; -0xdaaac1799f41530731bf695e804925ad79b0363d40a595c83cb24012ab0f0a1d4; 0x426d7c5ad063c87fbb29c1aac0132db731e01883361ec95ff3c991899c9f1c95c; -0x2709f82eb0578661c845a884ce2322fb770eca595f951022be199e6dfb557736; 0x26e7759b94c197ac8b398d9bb355a1b45a0ac12ad5000044a6f11a30b94eca8a; -0xd46fbc164608fdd0aa6ea160c47573ae13c68cd83e1ed32489cf7b817980e; 0x1ef3645729176cff98931598e6edfd9035f2899f1ea186dab10debd7241da3de; -0x7a9a7293e2076b4c681f15afbe3e758636905fd09a95a6dd2eecdc36a9bf1d7c5; 0x883dec48be2d9e68304073a51c23233b5f154e9f3f40d9d84908872027061a3b2; -0x998b91191f3e9ffc04dc31d3f8442ec56aa1604861fe4cefb897491ef2b381357; 0x5cbd6da5ac66a4521c76b9769505d4c9ef324ff438148d82b29c29dd5ca24329; 0x5ab660be543d48003afa489dbddb31cdbead69b0715e0971f40a61936fb2a6c6; 0x61c87797264ff64c15f545d12010186a5b383dec7a0dd399bd756547a67c0003; 0x149e5a6a8c1bd2631b7ea99df6f3b5ab6a2ea8513c3365658b531189672af7ac; 0x279647abcdbb6120062b314f8632d17f0f51281a04dd72ca6eae72bbaabfb772; 0xac8a4b79174deaf4456dc5f76db05f6e319381f83a7ef1cf21d527082dc75f3; 0x1833405b9af5e8b917a9cc366bc7625f59eb7f229f881d0424e32ea2747c5eec; 0x549c98a73fea74add0baa07ad7bdd768cd835a6b1c0c26bf9c0f3bd6908e370; 0x4e501a6fa1264f0b3eee9e041361bb01743da5b2d819aeb3274ec68b218a1ad0; -0x1524b7aa0680130a17823c059e8a14f5b92db5cba0132735101c5e4ff7adeed0; 0xb028240cd44177b4004be68d95d819ec1026cd52c4575af28e62465ba25acc3].
Lemma fpw_val : (let '(a, b, _) := fpw 9 1 ge hints in (a mod Z.pos bn_q, b mod Z.pos bn_q)) = (g0, g1). Proof. vm_compute. reflexivity. Qed.
(** [(9 + u)^((q-1)/6)] *)
Lemma bn_gam : gam (m:=bn_q) 9 1 = (z g0, z g1).
Proof.
  unfold gam. assert (E : ((N.pos bn_q ^ N.of_nat 1 - 1) / 6 = N.pos ge)%N) by (vm_compute; reflexivity). rewrite E. change (xi (m:=bn_q) 9) with ((z 9, z 1) : X2).
  pose proof (fpw_ok 9 1 ge hints) as H. pose proof fpw_val as V. destruct (fpw 9 1 ge hints) as [[a b] hs]. rewrite <- H. injection V as Va Vb. apply f_equal2; apply of_Z_eq_iff; [rewrite Va|rewrite Vb]; symmetry; apply Z.mod_small; vm_compute; split; congruence.
Qed.
(** the generator [Q] of G2, [2 Q], [pi Q], [pi^2 Q], [2 Q + pi Q]; G1's generator is (1, 2) *)
Definition G2 : pt2 (m:=bn_q) := ((z 10857046999023057135944570762232829481370756359578518086990519993285655852781, z 11559732032986387107991004021392285783925812861821192530917403151452391805634), (z 8495653923123431417604973247489272438418190587263600148770280649306958101930, z 4082367875863433681332203403145435568316851327593401208105741076214120093531)).
Definition R2 : pt2 (m:=bn_q) := ((z 18029695676650738226693292988307914797657423701064905010927197838374790804409, z 14583779054894525174450323658765874724019480979794335525732096752006891875705), (z 2140229616977736810657479771656733941598412651537078903776637920509952744750, z 11474861747383700316476719153975578001603231366361248090558603872215261634898)).
Definition P1 : pt2 (m:=bn_q) := ((z 13824868563399673693405984206252027284526901521624614945388441201916943098448, z 6070174842523651825461006324987645339257276059765462992338211551285097849152), (z 4224873494559498571787136390356590572898009346319218613936276445484292886657, z 14979195929948718632567968180703131754953567972706796447883440492471033097811)).
Definition P2 : pt2 (m:=bn_q) := ((z 21269001667514760679129681327372163052514831689868035979313856500765446193849, z 9297169622091300181688275113796795577971148135373186795446279807370186273215), (z 13392588948715843804641432497768002650278120570034223513918757245338268106653, z 17805874995975841540914202342111839520379459829704422454583296818431106115052)).
Definition R3 : pt2 (m:=bn_q) := ((z 16180691322657536502114449823038945789929264492623988194224796262221331038207, z 7665840795583964055402789826030669563653509075030315141087298253692251118702), (z 15315317886110450698500812680368831330724806971835880419594308524254035710745, z 524354369656155959209520090248663116598314047014910278510957198998846844143)).

Lemma x2_eq (a b : X2) : val (fst a) = val (fst b) -> val (Datatypes.snd a) = val (Datatypes.snd b) -> a = b.
Proof. destruct a, b. cbn [fst Datatypes.snd]. intros H K. apply F_eq in H, K. now subst. Qed.
Ltac pteq := apply f_equal2; apply x2_eq; vm_compute; reflexivity.
Lemma quot (a b s : X2) : b <> x2_0 -> x2_mul s b = a -> x2_mul a (x2_inv b) = s.
Proof. intros N <-. pose proof (x2_inv_ok (m:=bn_q) bn254_q_prime bn_mod4 b N) as I. transitivity (x2_mul s (x2_mul b (x2_inv b))); [ring|rewrite I; ring]. Qed.
Ltac nz := intros E; apply (f_equal (fun a : X2 => val (fst a))) in E; vm_compute in E; discriminate.
Lemma dbl_G2 : pt_dbl G2 = Some R2.
Proof. unfold pt_dbl. replace (x2_is0 (Datatypes.snd G2)) with false by (vm_compute; reflexivity). apply f_equal. match goal with |- third (x2_mul ?a (x2_inv ?b)) _ _ _ = _ => assert (S : x2_mul a (x2_inv b) = (z 16053038067190296367468596356094192129022731063914732179120945019446884619221, z 8255536868292620944764013913115571796604549141481799957648719094616980280887)) by (apply quot; [nz|apply x2_eq; vm_compute; reflexivity]); rewrite S; clear S end. unfold third, R2. cbv zeta. pteq. Qed.
Lemma frob_G2 : pt_frob 9 G2 = P1.
Proof. unfold pt_frob. rewrite bn_gam. cbv zeta. unfold P1. pteq. Qed.
Lemma frob_P1 : pt_frob 9 P1 = P2.
Proof. unfold pt_frob. rewrite bn_gam. cbv zeta. unfold P2. pteq. Qed.
Lemma add_R2 : pt_add R2 P1 = Some R3.
Proof. unfold pt_add. replace (same_x (fst R2) (fst P1)) with false by (vm_compute; reflexivity). apply f_equal. match goal with |- third (x2_mul ?a (x2_inv ?b)) _ _ _ = _ => assert (S : x2_mul a (x2_inv b) = (z 8528273551790795452944581028698317751299452136354197561591467727963859853996, z 12973966833160842807064172057315156268121570898442339195060962050159497943863)) by (apply quot; [nz|apply x2_eq; vm_compute; reflexivity]); rewrite S; clear S end. unfold third, R3. cbv zeta. pteq. Qed.
Notation wm := (w6_mul (m:=bn_q) 9).
Notation chord A B T := (chord_at 9 (twist 9 A) (twist 9 B) (embed T)).
Notation tang A T := (tangent_at 9 (twist 9 A) (embed T)).
Definition mval (T : F bn_q * F bn_q) : W6 := wm (wm (wm (wm w6_1 w6_1) (tang G2 T)) (chord R2 P1 T)) (chord R3 (pt_neg P2) T).
Lemma mill_G2 T : miller 9 G2 T [1; 0] = Some (mval T).
Proof.
  unfold miller. cbn [miller_iters]. unfold miller_iter, miller_dbl. change (signed 1 G2) with G2. rewrite dbl_G2. change (0 =? 0) with true. cbv iota.
  unfold miller_final, miller_add. rewrite frob_G2, frob_P1, add_R2. unfold mval. apply f_equal. generalize (chord R3 (pt_neg P2) T) (chord R2 P1 T) (tang G2 T). intros. apply eq_refl.
Qed.
Notation nzd := (w6_no_zero_div 9 bn254_q_prime bn_mod4 bn_mod6 bn_primitive6).
Lemma nzF a : val (z a) <> 0 -> z a <> F0 :> F bn_q. Proof. intros N E. apply N. rewrite E. reflexivity. Qed.
Lemma one_n0 : (w6_1 : W6) <> w6_0. Proof. apply (w6_1_n0 (m:=bn_q) bn254_q_prime). Qed.
(** at the generator of G1 *)
Lemma mval_gen : mval (z 1, z 2) <> w6_0.
Proof.
  assert (N2 : z 2 <> F0) by (apply nzF; vm_compute; discriminate).
  unfold mval. apply nzd; [apply nzd; [apply nzd; [apply nzd; exact one_n0|]|]|].
  - apply (tang_n0 9 bn254_q_prime bn_mod4); [nz|exact N2].
  - apply (chord_n0 9 bn254_q_prime bn_mod4); [nz|exact N2].
  - apply (chord_n0 9 bn254_q_prime bn_mod4); [unfold pt_neg; cbn [fst]; nz|exact N2].
Qed.
(** at (1, 0), a point of order 2 of another curve *)
Lemma mval_two : mval (z 1, z 0) <> w6_0.
Proof.
  unfold mval. apply nzd; [apply nzd; [apply nzd; [apply nzd; exact one_n0|]|]|].
  - rewrite tangent_sparse. intros E. apply (f_equal (fun a : W6 => let '(_, _, _, _, a4, _) := a in val (fst a4))) in E. vm_compute in E. discriminate.
  - rewrite chord_sparse. intros E. apply (f_equal (fun a : W6 => let '(_, _, _, a3, _, _) := a in val (fst a3))) in E. vm_compute in E. discriminate.
  - rewrite chord_sparse. intros E. apply (f_equal (fun a : W6 => let '(_, _, _, a3, _, _) := a in val (fst a3))) in E. vm_compute in E. discriminate.
Qed.
(** ** Powers *)
Lemma some_inj {A} (a b : A) : Some a = Some b -> a = b. Proof. now injection 1. Qed.
Local Opaque mval.
Notation "x ^^ e" := (npow (w6_1 (m:=bn_q)) wm x e) (at level 30).
Notation q := (N.pos bn_q).
Notation WR := (w6_ring (m:=bn_q) 9).
Notation EASY := ((q ^ 6 - 1) * (q ^ 2 + 1))%N.
Lemma fld (x : W6) : x <> w6_0 -> unit12 bn_q 9 x. Proof. exact (w6_field (m:=bn_q) 9 bn254_q_prime bn_mod4 bn_mod6 bn_primitive6 x). Qed.
Lemma CC (x : W6) : (x ^^ (q ^ 6)) ^^ (q ^ 6) = x.
Proof. destruct x as [[[[[a0 a1] a2] a3] a4] a5]. rewrite !(frob_q6 (m:=bn_q) 9 bn254_q_prime bn_mod4 bn_mod6 bn_primitive6). repeat apply f_equal2; ring. Qed.
Lemma split_pow (x : W6) (s a e : N) : (a = 2 * e)%N -> x ^^ (s * a) = wm x x ^^ (s * e).
Proof. intros ->. replace (s * (2 * e))%N with (2 * (s * e))%N by ring. rewrite (npow_mul _ _ _ _ _ _ WR). f_equal. change 2%N with (1 + 1)%N. now rewrite (npow_add _ _ _ _ _ _ WR), (npow_1 _ _ _ _ _ _ WR). Qed.
Lemma pm_easy (x : W6) : x <> w6_0 -> pm x (x ^^ (q ^ 6)) -> x ^^ EASY = w6_1.
Proof.
  intros N H. assert (E2 : (q ^ 2 + 1 = 2 * ((q ^ 2 + 1) / 2))%N) by (vm_compute; reflexivity). rewrite (split_pow _ _ _ _ E2). apply (fix_one _ _ _ _ q6_S); [apply fld; now apply nzd|].
  rewrite (npow_base _ _ _ _ _ _ WR). destruct H as [H | H].
  - now rewrite <- H.
  - assert (E : x ^^ (q ^ 6) = w6_opp x). { transitivity (w6_opp (w6_opp (x ^^ (q ^ 6)))); [ring|]. now rewrite <- H. } rewrite E. ring.
Qed.
Notation decs w := (forall j, (1 <= j <= (Z.to_N bx + 1) * Z.to_N bx * Z.to_N bx)%N -> decompressible bn_q ((w ^^ EASY) ^^ j)).
Lemma pm_decs (x : W6) : x <> w6_0 -> pm x (x ^^ (q ^ 6)) -> decs x.
Proof. intros N H j _. rewrite (pm_easy x N H), (npow_one _ _ _ _ _ _ WR). exact dec_1. Qed.
Notation mneg := (miller_neg (m:=bn_q) 9 bn254_q_prime bn_mod4 bn_mod6 bn_primitive6).
Lemma two_decs : decs (mval (z 1, z 0)).
Proof.
  apply pm_decs; [exact mval_two|]. destruct (mneg G2 (z 1, z 0) [1; 0] _ (mill_G2 _)) as (w' & E & H). assert (E1 : neg1 (z 1, z 0) = (z 1, z 0) :> F bn_q * F bn_q) by (unfold neg1; cbn [fst Datatypes.snd]; apply f_equal2; [reflexivity|apply F_eq; vm_compute; reflexivity]).
  rewrite E1, mill_G2 in E. apply some_inj in E. rewrite <- E in H. exact H.
Qed.
Lemma conj_decs (x w' : W6) : x <> w6_0 -> pm w' (x ^^ (q ^ 6)) -> decs (wm w' x).
Proof.
  intros Nx H. apply pm_decs.
  - apply nzd; [|exact Nx]. apply (pm_n0 9 _ _ H). now apply (npow_n0 9 bn254_q_prime bn_mod4 bn_mod6 bn_primitive6).
  - clear - H. rewrite (npow_base _ _ _ _ _ _ WR). left. destruct H as [-> | ->].
    + rewrite CC. ring.
    + assert (O : w6_opp (x ^^ (q ^ 6)) ^^ (q ^ 6) = w6_opp x).
      { rewrite <- (CC x) at 2. generalize (x ^^ (q ^ 6)). intros y. destruct y as [[[[[a0 a1] a2] a3] a4] a5]. unfold w6_opp. rewrite !(frob_q6 (m:=bn_q) 9 bn254_q_prime bn_mod4 bn_mod6 bn_primitive6). repeat apply f_equal2; ring. }
      rewrite O. ring.
Qed.
Lemma gen_decs : forall w', miller 9 G2 (neg1 (z 1, z 2)) [1; 0] = Some w' -> decs (wm w' (mval (z 1, z 2))).
Proof.
  intros w' E. destruct (mneg G2 (z 1, z 2) [1; 0] _ (mill_G2 _)) as (w2 & E2 & H). rewrite E in E2. apply some_inj in E2. rewrite <- E2 in H. exact (conj_decs _ _ mval_gen H).
Qed.
Lemma bls_decs : forall w', miller 9 (pt_neg G2) (z 1, z 2) [1; 0] = Some w' -> decs (wm w' (mval (z 1, z 2))).
Proof.
  intros w' E. rewrite (miller_negQ (m:=bn_q) 9 bn254_q_prime bn_mod4 bn_mod6 bn_primitive6 G2 (z 1, z 2) [1; 0] _ (mill_G2 _)) in E. apply some_inj in E. apply conj_decs; [exact mval_gen|]. left. symmetry. exact E.
Qed.
Local Opaque bn_q.
Section Ex.
Context (ch : fpchip bn_r) (HN : fpchip_new (p:=bn_r) bn_q n k = Some ch).
Let H1 : (1 <= lb < 64)%nat. Proof. lia. Qed.
Let H2 : (2 * lb <= CAPACITY bn_r)%nat. Proof. rewrite bn_cap. lia. Qed.
Let Hp := bn254_r_prime.
Let Hq : prime (Z.pos bn_q) := bn254_q_prime.
Let HK := bn_fp_params.
Let HZ := bn_zcap.
Let Hx1 : 1 <= Z.abs 9. Proof. lia. Qed.
Let Hx2 : - 2 ^ 63 < 9 < 2 ^ 63 - 1. Proof. lia. Qed.
Definition load_g2 (A : pt2 (m:=bn_q)) : M bn_r (g2pt bn_r) := x <- vec_load_private lb bn_q ch (l2 (fst A)) ;; y <- vec_load_private lb bn_q ch (l2 (Datatypes.snd A)) ;; ret (mkG2 x y).
Definition load_g1 (T : F bn_q * F bn_q) : M bn_r (ecpt bn_r) := x <- fp_load_private lb bn_q ch (fst T) ;; y <- fp_load_private lb bn_q ch (Datatypes.snd T) ;; ret (mkPt x y).
Notation hg A := (fun o => hgcarried bn_r bn_q n k o A).
Notation hp T := (fun o => hpcarried bn_r bn_q n k o T).
Notation gc := (gcells bn_r).
Notation pc := (pcells bn_r).
Let LG A : comp lb (fun _ => True) (load_g2 A) (hg A) (fun rho o => oks (gc o) rho).
Proof.
  assert (HL : forall v, _) by exact (fun v => proj1 (proj2 (proj2 (proj2 (C72_load bn_r bn_q lb Hp H1 H2 Hq n k ch HN HK v))))).
  eapply comp_bind; [apply HL|cbv beta; auto|]. cbv beta. intros x Hx. eapply comp_bind; [apply HL|cbv beta; auto|]. cbv beta. intros y Hy.
  apply comp_ret; [split; assumption|]. intros rho [[_ X] Y]. unfold gcells. cbn [gx gy]. apply Forall_app. split; [exact X|exact Y].
Qed.
Let LP T : comp lb (fun _ => True) (load_g1 T) (hp T) (fun rho o => oks (pc o) rho).
Proof.
  assert (HL : forall v, _) by exact (fun v => proj1 (C51_load_complete bn_r bn_q lb Hp H1 H2 Hq n k ch HN HK v)).
  eapply comp_bind; [apply HL|cbv beta; auto|]. cbv beta. intros x Hx. eapply comp_bind; [apply HL|cbv beta; auto|]. cbv beta. intros y Hy.
  apply comp_ret; [split; assumption|]. intros rho [[_ X] Y]. unfold pcells. cbn [px py]. apply Forall_app. split; [exact X|exact Y].
Qed.
(** the line through [2 Q] and [pi Q] at the generator of G1 *)
Example C79_lines_example : comp lb (fun _ => True) (A <- load_g2 R2 ;; B <- load_g2 P1 ;; T <- load_g1 (z 1, z 2) ;; sparse_line_function_unequal lb ch A B T)
  (fun o => hscarried bn_r bn_q n k o (chord R2 P1 (z 1, z 2))) (fun _ _ => True).
Proof.
  eapply comp_bind; [apply LG|cbv beta; auto|]. cbv beta. intros A HA. eapply comp_bind; [apply LG|cbv beta; auto|]. cbv beta. intros B HB. eapply comp_bind; [apply LP|cbv beta; auto|]. cbv beta. intros T HT.
  eapply comp_weaken; [exact (proj1 (C79_lines_complete bn_r bn_q lb Hp H1 H2 Hq n k ch HN HK 9 Hx1 Hx2 bn_room12' bn_bound12' A B T _ _ _ HA HB HT))| | |]; cbv beta.
  - intros rho [[[_ X] Y] Z']. apply Forall_app; split; [assumption|apply Forall_app; split; assumption].
  - intros o [_ Ho]. exact Ho.
  - auto.
Qed.
(** [2 Q] and then [2 Q + pi Q] *)
Example C79_twist_example : comp lb (fun _ => True) (A <- load_g2 G2 ;; R <- g2_double lb bn_q ch (quot2 bn_q) A ;; B <- load_g2 P1 ;; g2_add_unequal lb bn_q ch (quot2 bn_q) R B)
  (fun o => hgcarried bn_r bn_q n k o R3) (fun _ _ => True).
Proof.
  assert (CT : forall Q0 Q1 A B S, _) by exact (fun Q0 Q1 A B S => C79_twist_complete bn_r bn_q lb Hp H1 H2 Hq n k ch HN HK 9 Hx2 bn_room12' bn_bound12' bn_new_ok bn_mod6 bn_table bn_table_ok Q0 Q1 A B S HZ).
  eapply comp_bind; [apply LG|cbv beta; auto|]. cbv beta. intros A HA.
  eapply comp_bind; [exact (proj1 (CT A A G2 G2 R2 HA HA) dbl_G2)|cbv beta; intros rho [_ X]; exact X|]. cbv beta. intros R HR.
  eapply comp_bind; [apply LG|cbv beta; auto|]. cbv beta. intros B HB.
  eapply comp_weaken; [exact (proj1 (proj2 (CT R B R2 P1 R3 HR HB)) add_R2)| | |]; cbv beta; auto.
  intros rho [[_ X] Y]. apply Forall_app; auto.
Qed.
Notation naf := [0; 1].
Lemma naf2_ok : naf_ok naf. Proof. split; [repeat constructor; lia|apply le_n]. Qed.
Example C80_miller_example : comp lb (fun _ => True) (A <- load_g2 G2 ;; T <- load_g1 (z 1, z 2) ;; miller_loop_BN lb bn_q ch 9 bn_table (quot2 bn_q) A T naf)
  (fun o => hcarrieds bn_q n k o (enc (mval (z 1, z 2)))) (fun _ _ => True).
Proof.
  eapply comp_bind; [apply LG|cbv beta; auto|]. cbv beta. intros A HA. eapply comp_bind; [apply LP|cbv beta; auto|]. cbv beta. intros T HT.
  eapply comp_weaken; [exact (C80_miller_complete bn_r bn_q lb Hp H1 H2 Hq n k ch HN HK 9 Hx1 Hx2 bn_room12' bn_bound12' bn_new_ok bn_mod6 bn_table bn_table_ok A T naf G2 (z 1, z 2) _ HZ naf2_ok HA HT (mill_G2 _))| | |]; cbv beta; auto.
  intros rho [[_ X] Y]. apply Forall_app; auto.
Qed.
Example C80_multi_example : comp lb (fun _ => True) (A <- load_g2 G2 ;; T <- load_g1 (z 1, z 2) ;; S <- load_g1 (z 1, z 0) ;; multi_miller_loop_BN lb bn_q ch 9 bn_table (quot2 bn_q) [(T, A); (S, A)] naf)
  (fun o => hcarrieds bn_q n k o (enc (wm (mval (z 1, z 2)) (mval (z 1, z 0))))) (fun _ _ => True).
Proof.
  eapply comp_bind; [apply LG|cbv beta; auto|]. cbv beta. intros A HA. eapply comp_bind; [apply LP|cbv beta; auto|]. cbv beta. intros T HT. eapply comp_bind; [apply LP|cbv beta; auto|]. cbv beta. intros S HS.
  assert (EM : millers 9 [((z 1, z 2), G2); ((z 1, z 0), G2)] [1; 0] = Some (wm (mval (z 1, z 2)) (mval (z 1, z 0)))). { cbn [millers]. rewrite !mill_G2. generalize (mval (z 1, z 2)) (mval (z 1, z 0)). intros u v. apply f_equal. ring. }
  eapply comp_weaken; [exact (C80_multi_complete bn_r bn_q lb Hp H1 H2 Hq n k ch HN HK 9 Hx1 Hx2 bn_room12' bn_bound12' bn_new_ok bn_mod6 bn_table bn_table_ok [(T, A); (S, A)] naf [((z 1, z 2), G2); ((z 1, z 0), G2)] _ HZ naf2_ok eq_refl ltac:(discriminate)
    ltac:(constructor; [split; assumption|constructor; [split; assumption|constructor]]) EM)| | |]; cbv beta; auto.
  intros rho [[[_ X] Y] Z']. cbn [flat_map fst Datatypes.snd]. apply Forall_app; split; [apply Forall_app; split; assumption|]. apply Forall_app; split; [apply Forall_app; split; assumption|constructor].
Qed.
(** at (1, 0) every power is decompressible *)
Example C81_pairing_example : comp lb (fun _ => True) (A <- load_g2 G2 ;; T <- load_g1 (z 1, z 0) ;; pairing lb bn_q ch 9 bn_table (quot2 bn_q) (quot12 bn_q 9) naf bx A T)
  (fun o => hcarrieds bn_q n k o (enc (mval (z 1, z 0) ^^ ((q ^ 12 - 1) / N.pos bn_r)))) (fun _ _ => True).
Proof.
  eapply comp_bind; [apply LG|cbv beta; auto|]. cbv beta. intros A HA. eapply comp_bind; [apply LP|cbv beta; auto|]. cbv beta. intros T HT.
  eapply comp_weaken; [exact (C81_pairing_complete bn_r bn_q lb Hp H1 H2 Hq n k ch HN HK 9 Hx1 Hx2 bn_room12' bn_bound12' bn_new_ok bn_mod6 bn_primitive6 bn_table bn_table_ok bx bn_x_range bn_q_poly naf A T G2 (z 1, z 0) _ HZ naf2_ok HA HT (mill_G2 _) mval_two two_decs)| | |]; cbv beta; auto.
  intros rho [[_ X] Y]. apply Forall_app; auto.
Qed.
(** the check accepts [e(Q, P) = e(Q, P)] at the generators *)
Example C81_check_example : comp lb (fun _ => True) (A <- load_g2 G2 ;; T <- load_g1 (z 1, z 2) ;; B <- load_g2 G2 ;; S <- load_g1 (z 1, z 2) ;; pairing_check lb bn_q ch 9 bn_table (quot2 bn_q) (quot12 bn_q 9) naf bx A T B S)
  (fun _ => True) (fun _ _ => True).
Proof.
  eapply comp_bind; [apply LG|cbv beta; auto|]. cbv beta. intros A HA. eapply comp_bind; [apply LP|cbv beta; auto|]. cbv beta. intros T HT.
  eapply comp_bind; [apply LG|cbv beta; auto|]. cbv beta. intros B HB. eapply comp_bind; [apply LP|cbv beta; auto|]. cbv beta. intros S HS.
  eapply comp_weaken; [exact (C81_check_complete bn_r bn_q lb Hp H1 H2 Hq n k ch HN HK 9 Hx1 Hx2 bn_room12' bn_bound12' bn_new_ok bn_mod6 bn_primitive6 bn_table bn_table_ok bx bn_x_range bn_q_poly naf A T B S G2 G2 _ _ _ _ HZ naf2_ok eq_refl HA HT HB HS (mill_G2 _) (mill_G2 _) mval_gen mval_gen gen_decs eq_refl)| | |]; cbv beta; auto.
  intros rho [[[[_ X] Y] Z'] U']. apply Forall_app; split; [assumption|apply Forall_app; split; [assumption|apply Forall_app; split; assumption]].
Qed.
(** a signature equal to the message hash under the public key [g1] (secret key 1) verifies *)
Example C82_bls_example : comp lb (fun _ => True) (G <- load_g1 (z 1, z 2) ;; A <- load_g2 G2 ;; K <- load_g1 (z 1, z 2) ;; B <- load_g2 G2 ;; bls_verify lb bn_q ch 9 bn_table (quot2 bn_q) (quot12 bn_q 9) naf bx G A K B)
  (fun o => hval o = F1) (fun _ _ => True).
Proof.
  eapply comp_bind; [apply LP|cbv beta; auto|]. cbv beta. intros G HG. eapply comp_bind; [apply LG|cbv beta; auto|]. cbv beta. intros A HA.
  eapply comp_bind; [apply LP|cbv beta; auto|]. cbv beta. intros K HK'. eapply comp_bind; [apply LG|cbv beta; auto|]. cbv beta. intros B HB.
  eapply comp_weaken; [exact (C82_bls_complete bn_r bn_q lb Hp H1 H2 Hq n k ch HN HK 9 Hx1 Hx2 bn_room12' bn_bound12' bn_new_ok bn_mod6 bn_primitive6 bn_table bn_table_ok bx bn_x_range bn_q_poly naf G A K B (z 1, z 2) (z 1, z 2) G2 G2 _ _ HZ naf2_ok eq_refl HG HA HK' HB (mill_G2 _) (mill_G2 _) mval_gen mval_gen bls_decs)| | |]; cbv beta; auto.
  - intros rho [[[[_ X] Y] Z'] U']. apply Forall_app; split; [assumption|apply Forall_app; split; [assumption|apply Forall_app; split; assumption]].
  - exact (fun o H => proj1 (proj2 H) eq_refl).
Qed.
End Ex.
End InstanceP.
