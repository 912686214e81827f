(** The hypotheses of C76-C78 are met by BN254, with examples, and the refutations. *)
From Coq Require Import ZArith NArith Znumtheory Lia List Bool Ring.
From Verif Require Import Field Spec Context ContextProofs Utils Logic Gate GateProofs ChainProofs IPProofs BitProofs PowProofs IPComp Derived Calc CalcH
  Range RangeProofs RangeProofs2 RangeProofs3 BigInt BigSpec BigNum BigPrims BigOps BigSel BigCmp BigSub BigCarry BigMod BigCrtNum BigCrt
  FpChip FpProofs FpProofs2 FpProofs3 FpField FpField2 FpField3 Pocklington Bn254Primes PropsBigInt PropsFp Ecc PropsNaf FieldExt ExtSpec ExtSpec2 ExtProofs ExtProofs2 ExtProofs3 ExtProofs4 ExtProofs5 PropsExt PropsExt2
  RingPow CycSpec FrobSpec Cyclo Fp12Field FinalExp GaussOps FinalProofs FinalProofs2 FinalProofs3 FinalHigh PropsFinal.
Import ListNotations.
Local Open Scope Z_scope.

(** ** The hypotheses hold for BN254 (3 limbs of 88 bits, 17 lookup bits, XI_0 = 9, BN_X = 4965661367192848881) *)
Section Instance.
Local Open Scope monad_scope.
Local Opaque npow.
Notation lb := 17%nat.
Notation n := 88%nat.
Notation k := 3%nat.
Notation bx := 4965661367192848881.
Add Ring Fringb : (F_ring bn_q) (morphism (F_morph bn_q), constants [Fcst]).
Let H1 : (1 <= lb < 64)%nat. Proof. lia. Qed.
Let H2 : (2 * lb <= CAPACITY bn_r)%nat. Proof. rewrite bn_cap. lia. Qed.
Example bn_room12' : ExtProofs.room (p:=bn_r) lb n k (log2_ceil (Z.of_nat k) + n + n + 9 + Nat.max (log2_ceil (Z.abs 9)) (log2_ceil (Z.abs (9 + 1))) + 1). Proof. unfold ExtProofs.room. rewrite bn_cap. apply Nat.leb_le. vm_compute. reflexivity. Qed.
Example bn_bound12' : 8 * ((12 * Z.abs 9 + 12) * (2 ^ Z.of_nat (bits (Z.pos bn_q)) * 2 ^ Z.of_nat (bits (Z.pos bn_q))) + 2 * 2 ^ Z.of_nat (bits (Z.pos bn_q))) < 2 ^ Z.of_nat (n * k + NUM_BITS bn_r).
Proof. rewrite bn_bits, bn_nb. vm_compute. reflexivity. Qed.
Lemma bn_mod6 : Z.pos bn_q mod 6 = 1. Proof. vm_compute. reflexivity. Qed.
Lemma bn_mod4 : Z.pos bn_q mod 4 = 3. Proof. vm_compute. reflexivity. Qed.
Example bn_q_poly : Z.pos bn_q = 36 * bx ^ 4 + 36 * bx ^ 3 + 24 * bx ^ 2 + 6 * bx + 1. Proof. vm_compute. reflexivity. Qed.
Example bn_r_order : group_order bx = Z.pos bn_r. Proof. vm_compute. reflexivity. Qed.
Notation zv := 21888242871839275220042445260109153167277707414472061641714758635765020556617.
Notation ze := (3648040478639879203707734290876212514782718526216303943781506315774204368097)%positive.
(** [82^((q-1)/6)], and 82 is the norm of [9 + u] *)
Lemma bn_zeta_pow : fst (powh (Z.pos bn_q) 82 ze [0x0; 0x0; 0x0; 0x0; 0x0; 0x27088c641d580fe7ed799b22998a3d8d8eab934; 0x19e05c2e02b9ddb13fb55ed16aad63d894dd87acd6f32cd53dd9161a1542387; 0x9; 0xee663520e98722d2df805ed4ee7954569ff3fca39f02fda8ac32c7e5097325; 0x1b4db3108f3e6cee8d7576c2fd22b98be893f52a9a853668c9f653661b962aa4; 0x63da7910520e68d6a3ce5fd5e8a9f5ef02eef8737669611aae8539920286665; 0x24a4da3ef214169caf321127d989ce04ff3e6de6c579a66e5f09a7aa09cbe610; 0x1c2dd38dfa4001ed342d4d6996d009a1d2ec8a472d0f8381838068a5224cc35; 0x48; 0x29dfe05e63d7a23f7557da9eedd85e6e5e156cd2acea795c814b9b028f94416c; 0x298d0bbf80f4f2848849271172cfd826a7e9cc8f4b7ac37e42a157096aaa61e9; 0x16; 0x236a29b6f5d316448aad492261918bf7f134e4459315af2ceaa9b943e4b188c3; 0x0; 0x3f2afba10921172de715ca9d23b43578d1e56205d3b1fc0520917534ebb5f2; 0x61f1dbfc7a676affc8599d5d9d9cccc4a14f5c9cb15007b1162883eed9a475b; 0x8; 0x77f17cb9ae3e8b654163b9b07ddd81b6cfe97aec21cc92e8b9b09ce555bb98; 0x2c; 0x1e80d812cf56184f21f4fe3371351388c6365bc49988a41b1b87d64abe6070b; 0x13; 0x2e3106e5ff1849f35dd521fee129a7ec520c9793a25a3fb1f2187f81174c298; 0x3b; 0xd885f3ef2524cf58cdd6fa822e051893c8ec9ce7311aae9cc84abc5e0bc99d5; 0x1e624f66545a1eb1b791a961df8f64181e8216e0cf06445dfbc44b849e267ff5; 0xe; 0x469becece9fbacfb4ca41a0a2b990af4fb1f270e6952268cb2a9cdf51c789ac; 0x49; 0x3b9c1d3e3a29d96e6d4430290db659f08e67332a0f1faf42949bfa1de39efa8; 0x7; 0x291e7ae670205f1b088c9508368e4dcd70467bc7e7d96bcbe62f3f5cf31604e; 0x10; 0x2c4df2a497a8dce153c333661f95cc18e3a065335a21207d9ff6b851f1489fc4; 0x2124f9e5070c9b22dacf8a8e8728a00809bbc644b877adf3618b0093910f440c; 0x3; 0x15b1c5d14b5f8b6bdf71ca5b5e4e5568a70b5cae5508c81acaa0f4e80995949b; 0x47; 0x2f8f5df0fef5141b0bac3b5dbd9439d23c1c5d599ea69e1cd23f50295746e473; 0x1c; 0xec65d0cffa99482315475a4372eaa6361dec18d8f02c6bf10b36535c79; 0x7e0ca54a1d6d703249af4ddfa73aa0504a6908f071467f1f2b6de88881fea3f; 0x15; 0x2bc9ef668dcbb72717de6f065bd46b49ed96e05abb2865096ae7bb9ce696d272; 0x713ec34459755a6fe0b260e2fea67090229bd735a73bc8b45eb00b526551ac0; 0xd92fc492ad0f58a13fb5fffb9b36c6ba901f55c8b70f30f94f8e5d10dc883ec; 0xf995a5f205e01d5309e39e5a43d38ce67a0695a2c0e4479001d725446207afb; 0x161eba8356cce6c448a77e25907bedc3e973ba91c6b1ab79689b9f14cb9ad7; 0xc627108cbdcb2e0ce6da093300486fa8b4309dbcc4d3116c3b05e988982d88f; 0x3d2cd3b18f5506a519f706ab8b38ff44bc0e6b1179fd08681e0aec289a20ff1; 0x33; 0x21686e554cf3e4291e8d4b7a7dcf36bf051a257e5a1da180ca5d6a071eec3b4; 0x1c; 0x24f05b1ac7bc17a3468629129f61f6de17474046e063c02fe31b5002dc49cfe5; 0x1459a1756d177e7a3c475eea5cd980c7f1e9dac8dc248b610a9340442316147f; 0xa64d666913a8ee1c3afa49427c3f3d4a27793738b2b76f932e2693503301dc; 0x4; 0x266ea1803d051cb5ebd0bbb6f96e8f44111e34f5f65ed2e989d7d49de959d12; 0xcce8282dbf6a78624c89e5325e3b95f2e147d0db1864c808c4518883f65cf94; 0x6; 0x221f8d8cde388de827143ceb01e6e49b38d211f4ef1999811578b8778990892; 0x4f; 0x26defde5745aaa1720b2f6f4e4d94598b71dfe818a361be5e2e113a182e514f9; 0x1f; 0xdb633c97b5317370d6ac17bfd55a6436aaabe472a6e7f921c94ef02fd6f787e; 0x49; 0x285181e556fa329810311b343bad31417c647decf83a3a8f20b0fa07a6f201a; 0x2eb886bfdc9e5eae0d8faa915d4b408f34ba2c2076848ad4749938326140bd70; 0x149467a272cd00bdcba0a74769121c3727ecb691ab0e4d7805e86d608f6260; 0x19305975783ed44d46ff51be67ca2dd691aa6a461bc2aa07ee615d38ec6e6226; 0x1fd2b5410c44b2373217625865f7ef1177be3829054bbc73bf086a1cfa783d4c; 0x5177bef6a62e6d26258a400da149fac3c02829d0a78dd64536e6753e3a98c0; 0x158356a66822dd86a115494c172ce384dc0cae153e20ca200305b36ad09e14ad; 0x234395b914f40af4ac10188949d6050891cb2f9a98b6a9a677f9a1272f4fe3c; 0x2dcbee16a6b53e08c687a5107f228b77307f6a68ce58129fe9759bd43d998a84; 0xd44253a7ff8f036d58b937bf6317629dbf822ea9ec4da1cc82f9004bbd99cfe; 0xb; 0x7eee92c9a198b23b6b3d345b56f0395a033a8908029173a70aa9d2d7606295; 0xb; 0x103815bc012876f148c7832a0d152262549eb4168f78cf1df3333c30bcb643f8; 0x130304d059e075066ded39f4f170af921b94ee43afd42bb6fb695b9622cdca2e; 0x3d; 0x12463f45c05e45d6151355707498e50cf9a918f7fe813529d21829e56d9e0274; 0x22; 0x2426c543647bf7c1e932c45e778ea4334e12174675e1f527c89af4a6d72cce88; 0x4; 0x8396cdcfeaec547b7392335904a942997672e00365541babef86529ac7ebd; 0x1e; 0xc140acac3f312bf9ed79e4000024bb073f75eadc860107418346be92da15099; 0x69620f8c178819423de152b83c3c79f708e5d44cc37410adc100ea0596cd886; 0x1c; 0x12d22786594caa54cef90e7c8062cb5084112d4168d4b7cd3fa1d0ca094f7e21; 0x543ac1e74a987edeb1b0378404aa4bcaab0e8cfd30c2d2c6d433f6b88d8b5b0; 0x288286cc280efccd13ece316bfaf3e669c9ea09876964dc2425488a37628d750; 0x1b8a3a35dfa0fa6d5825b7f7e00e30f27470d165789bb84efc1296f4c96f0834; 0x450724b338417d024ee049b17b355541687cf594762537f78982603fd577a8d; 0x26370825db70db71636d4fea46e20fe7490671c3abf6a1a87f11fe2265c409dd; 0x1dbb8acc298e7a73d34745177716457c3a878bc2908e666520f923e0d4950a; 0x24; 0x1f02e25d36de768c40c0271d9c78b37deb173b1f84e75b5c83d0be1c1bf20622; 0xd; 0x3007f9108ab100a07b80d34dc3eb9297f24c2b46cf2be28a3b0c22cbe78f44d7; 0x71dacb658500ffe0a7c878b4f31d4b1a51f6aa76b69a8da6761b330ca78e681; 0x40; 0x2660bdcc1bdf61200f854b86366ccc95f5e5947af2e0e7c3cb245d221ddd4fb2; 0x15fefd855b5ae9ebbf001e13dc26e1a33aed7878c9562cf804c7db1c4181fbc4; 0x9; 0xacbcf55e997f84717314a357b6bd885d58c54973576a50933f9cfaacd1592e1; 0x4e; 0x26406fb4158492fa88f8f05129b7872afd58bcd40ff4c588250c46902bb5b; 0x2e352fa687f717e2af7c14eb21fc087734f8a6e4b4cce41dc04db2e8dddfa651; 0x59a817894f1b2e8e983713ee9311d8d7f0f48fda859b2094f1b4ccd224375aa; 0x1832ae9010db69d341a7711a8e4cb66966940ab546aa4f614be8169d8e53991; 0x289d168de4e1e6bdd50efba8af3d9b1aa63e93f73570c4d39da91e8de3919229; 0x27ac2257725549b29015c84b367977de82ae388bca866685156a6839877bad02; 0x11; 0x12017cf82550fc293529851b7c4f75090ec105d0c7ba77b2035ae15105b0db; 0x0; 0x1686952a574f9c28c81c9c3196c2da205534ad67e59de915cac07a13c42c7f; 0x3b; 0x301e16ca07c7fbad77de8295b91ddbe59163780fc50f07950d6503b9597502e3; 0x50; 0x26e675c4377d48a5d0cb7449ac04a295454e1b60be7f28e2baf87e5eb6477d1f; 0xb4d6141d2293c09094b38f6fb086abe282be272d6c9db84f4f4c392f8ae1b9f; 0x23f3a36e05351553faf24bddbac5078adabd5a82d7de654cf2e430c53fc9db72; 0x25; 0x19183a96efd3bb434156b45b6d4faa5537ebb14faa0e78ca878a97b97b28ad3b; 0x37; 0xa045414bae71d34a21644ed4c41bef4afddb2cfd60d430d2b3407da1631bd35; 0x7; 0x6f64777491493ba7750bc734967ed09ba7a710d6efa4dad86e6f7d529e815c4; 0x4d; 0x837059d1f25fde4887d5c07a14509d9420b8ea84b8b3d7a50904cd17ca77d5; 0x6832b12bd5d9e928720164351855cd85def09b9806b5f2c765eb7955a90a139; 0x12b001212c3bfd24d2035a3e1a00f67bc9d281a328213855a851bbbae010a69a; 0x2ea22dc81368473f0d2e96a6b055ac4dadc82d828822c753d0f011e7209ef14; 0x1335e9e49ccee256a4e4f8415a21e27f56e5b1d6e733dca433de77c216580348; 0x1746b8e7f09fa4ca947fe829d84e90c06cac968a716a148a6e98b46367dbb74; 0x33221bd36b6ada7c7b0763316bc20740fdb877ba54a8db7aa317aa1633a443; 0xac442cfedcb3de8142c06587f5294493410f1f059b249bac545e032b873fb85; 0x3; 0xde5097e75faa9e25ba230d9780e8beeee2a530eafb03cf50596a984341e0a63; 0x2f3267655b239e5de8e8998d8ec7d69fb8f2592fca4a9ca6a46d944816010bbb; 0x22135e62b7c2062b4f5c2ea8b587d68737d86e8d720477d8990ca6b937139c9; 0x9aae99c0b9ad4f73e24431125e25fe90ce77d7f319c27ce1a5a8cadd0cd5c83; 0x1bc2f791ef042211927dd310e4690c62b489ddd532384fbc06c71d4c84a38cd; 0x1129200f198ab3b3bb04f175db729122c6818cdc4d68eb0c601b3cc6461dafb6; 0x4fedb16cda562255c192d3bdac81b737558ed5314ca155a212fd4819c1ad4d7; 0x55933289501d90727bc7987804c84047481417526fc0bd539ee2cd60c29dd65; 0xe5f4a2e34fa64cb25cd951fc878195e4161018b7bc0a0d9a5052b08a92a0c84; 0x30; 0x1d65300c787389131554b9e5a5dc77fca2399ea7b7a6f81f73eee7f729a0550; 0x27; 0xc810b8293ea063924fbeed79cf9c2b384f632d7ad7ac6e36016230eb1ec7935; 0x1; 0x1c3fca866dd0e512149d88b82f8c0b90408c468c3c55b1b3e31faec7b9faf5d; 0x2884b1bec17916e359552488ef83f4c473a96625b1cfbbbda3b336a70917f1d1; 0x126cbc4bb630633d76afba0bb79a941cc1682c8077e9e4436ab635194fb0a3e5; 0x15; 0x28046f206f87c610bf1a03a3ad49ac0daf5eb5026f491505eaa68d18c5ea0a64; 0x1c10dd41ce953708c1471b44e1f89070f53ae01cc88a13aae4d761ab1aaaf08; 0x36; 0x29e021f7332718e9ffba1e73d42bfbfb0756e94e7c0cb3006eb0dc8c1192ac05; 0x51; 0x15ad9b971c62d6a13d7ac17ae177bf8ea66842be2e1aa36c35868273b1f4da; 0xc13c382a3e5a1a9395c8cc5e823267f0bdb5294d62d2d9436e89debe10a60fd; 0x114e99430249080b604ae6457a32b5b4832491d211539c69de77d64956a2a7a9; 0x12; 0xcdd53ac4f933c841737cba95acba32e0fa1dbb893fdfcc43cf3dc68a21a0bfa; 0x13f07e3e3fce4a4a2eb9e8aa3bcdd6592406cf59be7ae355a21995bae11c18a1; 0x12d910c1e8817376e1ecc6193ad12d92d93d3a64cd41485b74f78295ce80ade1; 0x40; 0xd0f5dece6556cc16328efe790b7ba2fa907ab10d4dc7bdb153f68616b7b0247; 0x1a; 0x169435393ac84f0fc9bba1890ab58642d3606544c23646db4364888cc06f8ea8; 0x41; 0x1d0c454f608683ebba45aed623484ec7ce5ac55fd190914f2d7b662c46eb188a; 0x1f12168379a035d6f07cc2efd4847cf92a009b92fcf4a0e6ac06ac07f0dba; 0x46; 0x136749738ecf54e5fda50ecda0543ece57c0fa005563c65fcf9c91b0d5ee3513; 0x3d; 0xa7a4d6198be84f6fb407ac5204098ebb2001e2cd3fc2c595a6f375573c33077; 0x4c; 0x1669d3474a19c19428e3ff23624505d876db224c0824d0938c1be5b289c689d7; 0xbf6d1af2e65cc4450fbf97bf5047aab7fc9d82f506a486827066a19ce13a197; 0x29; 0x1f597c2c2c98dee4f7e0ebf80b9d164ee4eada5b04a1a8bb9f600bebe56df3; 0xab91bcaff1f826aeab3cbd844de6a15810e8554694d2fd44f2d7527eb90b0ff; 0x16b6c72554fb9598c0030e7f4804da8040911b6ca11b66addfab3333459578ac; 0x22; 0x1c74e9cc7f445fafff3f7008ead2c0ae3b4e95c8d1e5a8df3ea18c6e89b88f80; 0x847878ea651629d1b7d1de0e4fd943f8776a126a1d251bcaad6b7dd91ad3767; 0x25; 0x2de7718e955dcc610d015744e2297a4f4bc68678658688c0960215dcacba986e; 0x8494bf2e0bdb08a51a5ca62a1aafd708fa0e7349a4ddf33a7806e913fa1a785; 0x10; 0x16c8f49b6377f265f70d7146cb1e8c1d6dde9ac8fe8bc8c3d3b2e7829258d57d; 0x40; 0x6679c4114e06c63bff23c8a5d08fc4da87692e626cda6bb0304089a47eb81c3; 0x2e70a7f3bcf320f48573d84c16a366f7ed5f04468d9850f1f8e19bac063e1c7c; 0x1afe5069c1bdd476e6ee8d3b2d3087b78b4fac68f03e410d4024be3d50a3d4be; 0x4d; 0xbd2ad2faf12958e2924e9e2859a6cb306ef004f84e3ebb54df0b65af0307932; 0x7416192e2afca9b38655f41d87885c52d004b9094035b8fb2dc6e47e3b48461; 0x5690d75fa7b323d9a0b21ee8bbfdfea61e437689810e9a3eca466ff4ad8d2d; 0x299d0391324a608cd2f8f31fdaa6a38c5739ce459ad1d2d763a8ab870888fe2a; 0x31; 0x24937c8e19369a24cc963791187c8b5c87cd8f24dd9bf3cb5186d0bbfa51c25d; 0xc; 0x1496805f0f71375b04091051334d3a60c828609ec48f63b1dc37a2f18de0c9; 0x17; 0xa9ca28079e85f0737f3546d91492f06274617b6766da34bdffd96c2ab3c7ba8; 0xbb3df3dfd08f90063adc4545df47a2f3a603218bee4172268ea768956c1e26; 0x1c0a2fac8c9178da33345e9088050c69fca4b77b456d14faef17e7df8a2e55f; 0x2a6f86071f5bd297ca294fc9f1a7b27f1ea3ba18889d68c626f32668ffae3e67; 0x487af0b898f3344425d4dd0b470e9ff09b5d70c26b529454556a42c315f9761; 0x4e; 0x21da5ff1f5f37a8664a33eddeb99eeae176e5115f9efea622c5c9818c2ee91d7; 0x7739980ee2328f81ff9c3353ee40e3eedaba37b4884469c502b20abe81b089f; 0x1f; 0x2790fa1577c4511faf323ac39b720b69f93d6a2d5d3bcc336634180496517fd8; 0x18; 0x273cc746687206050a480beb515ae936524183f392ba29bdd0b30f7152e828b; 0x21; 0x1f25ee296d5cb5c0920e175c63a2e4905428ac9fd62723e6cefb39e92f8c1715; 0x48d50e062fd7abf904dd5ce627633370674ec346b039efc1a1c26547756d04; 0x70d1be5be1983bfeb55ac07a41e9f24992f16035ca0b5c8de9de7c47b83a0c6; 0xc; 0xdc8d449f193bd879482fddafa4550885f9900e653d9869bf5ffbc89b26631; 0x26; 0x700b73653675693a758b7395e8c0ff32d5aced75dfffd76c9cb0bd0a5ca7bb; 0xc503c97e3beb2d7c45fae54f8102f307b5fa4de3333cea24139d1da0c5ea819; 0x22; 0x2ac98bb753be5ab77febd9403f2199f1cadbc129f68779c9ff7a59a0c62bb399; 0x124b2083606034918393259ad6cca40ffd08911ced439b36e8401d44f7fe5483; 0x22; 0x8aed078e5a2370b4c03a197f5bd2ddeda9198520ab759e419cb4e0b906b62b1; 0x3c; 0x1d72263c98785f92e2c2f0564fc3f57e79d4f0aa7a196ccf7bc28299fc2dc72c; 0x30; 0x36f3d013415fc5c4ed4faaefa59a618f1f39c696f08f3cc24c0c10c08cf1a8; 0x30; 0xdadc106c0228afba0a836c3a4ab4e498a37d99e5f1d6873ac265d019ab36385; 0x1c4583cf66383c7af79570118be7734b9e6933a507a342bf1213df999bcd050; 0x4b; 0x2c5d0c39984f490112ad345caece27590b080202cdea8b7cf2b8466b8ad893c0; 0x38; 0xef98832945aef989f075ac3fb9df74ba108c5e333b04187290f2b0aaf5e078c; 0x1dcd88e416dabaae9b18adf61eb3a534c5d8db6979e58581be4997827109371a; 0x1; 0x2b61dd5a8ae533479b1b35b0ccd90f19d4e244ce8584c894a01fe6188ae425b1; 0x2c5dfe83b3254d1b1ffb841a84d24b5d8de3e5680bce5b139b87b07a4c7de2e; 0x1a4f1b3c25baac323433052120442694c6712c16da2e2c5ea7faad531b28e7a2; 0x6d5a0774ae70286382a3507044be6ed94bc9d4b4acf8c6ba2e4875d3612c091; 0x717c4b3e7841aea5186b540ca34d7b6f32b08934002cfdaf8796e4db4caaa71; 0x10; 0x240cb9c8b68e369e2c077aecae12a475464d95cc1caf4b93b2867e3fe27f81cb; 0x20; 0x23d331b35bd16e235842fb32632cef94e786bdfc01ef42f02d2dd3067f658d9e; 0x2d; 0x1676479cf193876f035880db0d0d111b6398ab5e2588f9d92c680c0158635452; 0x483804d8a12a928875d4053b4ad62ddaede5683c3eddc19b42750b57d7f9bd0; 0x10ffcd10dda6c137d88dfc5cb159fdb7d8f3d0f0c14597b180210721ec7204c6; 0x19135f7d76a4fe0a49a432ff88209f691a8a6df3d837e8b9ad350418ac0a8d70; 0x3fe2497ffd14c16364fb429dadd350c6cd2cff2c7d21a606d459ae25c4ceac0; 0x46; 0xb0e55abaf8e638e4b5525c17f52b4cf91a6af120c409a5828a74946d60660c7; 0x1583d6f9b8ab64c4310a8609601b8d80125c270f972aa08fc0b2f38e6c260e95; 0x2b60044f9f43126526bbdf40a2f3c3e315478a60173ff94cfa634b3f78bbca1e; 0xf1deb58589bc8f48cc0ad4d2b033dd2abc7f4d500b4909d322a4327cc4f0c6b; 0x39; 0x17f298a60bf8be87fbcbf7dcf506b3b84161c167e487ac7b9de14fb02a306742; 0xf; 0x1f39ef89fb57ab0d9eb32e1df13c2edc2ea4103af41681ec849709dc65d14c98; 0xd07522d6f2e14f0a2a5c9bb04370134e2df61998831dbfa1032251c93fc7314; 0x4a; 0x10cc87d5f5570eb34bf73b3185a2b2f8dd24a1ab53f8ff660a9b1b78c2e25d6d; 0xa7fc743ee729072b527a584540fc06be202d02d2a3947521fdee2cdc680db5; 0x3e98f50f6183df8b59048a67f166890a190017142f56924c83a862274501d7e; 0x2f; 0x2d3a21d836c2387fd4f7d43e8d28ee11a22adf4018d21918a6c8b9ab0f1f9bcc; 0x1657d2431226596889b54ea2561e3feaff2bcf8e86ba92097a7ed2e5e19bdee4; 0x41; 0x6468506a13ce8dc5a60540b79f0b5541bbbf65f19cdf88b9c5d9b11c7393fbb; 0x9; 0xa5fe7359c87b1b42d2e0b9ccd09892c231e4183a2c75c86835d029388570a19; 0xe28f79d6a5ea032c8b077b1346d03522af976037bc4fdd2cb323a58f656f867; 0x1a10aeea1fd183b719cd96f9b61455a20fd06da5798fdb784d19b45b9b7c3b00; 0x4d44f1818596a6da99852d036489d53b9670d1c4fa2f59aece6d12dc732b38b; 0x2945875cbe24206cc5741923c34e9e44268899a969eec251a3748057fbc865b6; 0xc0608d853bf813457dfb0494a22fd190d6c226504e768bba437cd7382fefb37; 0xe3aa8e43d56d016c5e13d2a1b7a5d45ead2749b4faff7b2d78dcc8ce6a11b8c; 0x1740ed13323d4bba0d754c1263f46501ba28921bcad023ac4ab932067c6a3bb1; 0x37; 0x1a6af2ca60667b45e88ec159c37aeeeb60638b7d8f162654920b17d8f35cb2b1; 0x10d8dee58417c7c709ea03eb989c31437bb13346a1e41e58450c368f40c7eee; 0x2e; 0x8572adb87fbc184ba546060ff9ede2a91c5f24de15d65db5798653240d0aebf; 0x39; 0xa45ca4005040293b94f6647746d253cb46d68779f086589fc325aa6e6973ab1; 0xb; 0x89879d5a223dee00cb9eea15b30aa08e0da3373106a070d42cfca217edc75fe; 0xc36e6102762bdae0219dc41db789c9d26fd35e03d72a742c1eec47cb551ab8c; 0x19; 0x184c4c3d0241d28dfcbd5245e50d5ae05255754484558ef5b7963d0df1429ec6; 0x12ab7d262a691bea4031022729a8f77de5f84b3aecd8642ee4f969be4a41500b; 0x37; 0xe3be47bc4e37c3fabdd1c0b81b8eb3acf5f3395ef772ef1e97705472b17a489; 0x29; 0xfbc2c0eaa01a48bd6d601c6ca47fedf8f96ef8e616eae664882f05e9f8b127b; 0x1aaba014c0c5fdb5b706ca6572c2557f24e70f93b20a408f20584ddbe9cf8064; 0x2bcc8f8798973216e5ae2053e10edd3027383d8afdce7657f741c4be206422a7; 0x2e; 0x13b0267ca6fb5c6aa75c80c827152957286b57dfe52e9ccdef569fd9338f797; 0xa30ad4ed4ec92f0d7ec7d47252dd9b1f645379a6fad52b1c6cfd4c674c168a; 0x2e488e88ee6b7359229df2acbf781d086ae08101d3362a0976e58a0907148f19; 0x46; 0x64a24fd450f1f45763bf32794017b1d1218317994dc4d8d7fd734ae4c95e1b5; 0x22b32ca2b60ef4d3cc8466d2d5a6947ee8bb4a38a74a7182689de5f30992390; 0x19905b8a3caf4252382113195ffff9ed3007a10fce858d910cf4de86ef24addf; 0x30; 0x19dd0f81a55185b3ead2b4037a227a0c5a623bedaef359e2d516c2219c4a019c; 0x2efda0c458e636fe8152eef1bcdddfbba06d26718048ebfc77e7d39df8608622; 0xa793ceb7c4338777e73efe0462e5a14c594b837f80d307a6c23bdba50c817ea; 0x171f2c40e27654c0862299895c8412a351860b2e97477be1404c5207dc2a12c; 0x75be0f1f4892a92549ec094139c330e24dbadc0db02397ebaac1415bd52c9e4; 0x7c5cf84c57fc9d87532ddd5497275086c70e68a3e68cec62802c95c36396820; 0x34; 0xeba8c53087a7181c708c28026dea88cdd36af5d916feec2bc51a141a37af40; 0x28816e2245c350df1a2762d0adc799d1726d5bed8ac5ed97d447cb3a32b04369; 0x7; 0xb54e762375ed9ed9b16e5328313c571e0418159ca38403fff7d17b766ac28eb; 0x7d99f26ec977f586fff60786ae0ac1e3c3dccade12620f41decfd7f7437e75; 0x467d1b69b658591f970140ab0fb91900eeb413cf01b76925093bc1db82d2eb0; 0x43; 0x32c71ae00f519be53d95831f97b9376d1601b78ea536bf4f020e11e44594509; 0x2f; 0xc8291774706cdd2108945ce50d8fafcbf92bc79256b371a137deafe00397cb8; 0x173b9e9975bd75d0848de33f41fb92a580de1dca1f55529e0ad7c044768465ed; 0x1b; 0x1632a69a772e143db6ab18304a95f535501e2ff619382f364cafdd908fe7ff9c; 0x1a272c62f1a222edc24021dcf238eede68aab04cb04e73a8bc2a651f5a841516; 0x1d; 0x2f4725072342c0915e551b3cf8d78eaad1b3b0dda561e1c75c705250598; 0xe65ba5c559f528a97d99df9f6c224c660ddc0e43fd38d1c31a50a19396c617d; 0x2412cc6fb6ce0147c01f49848b1b088f8491c8d8576616e37fa476145c61315f; 0x16; 0x26d94eb8399d9cfec3899a53a574f067109763b84d26ae251bb7946c767b31a4; 0x2f; 0xd793bd2f97cc91b066095403226e61ee7c42690ee970fea59ff96141aa30c19; 0x2e; 0xb575ccb73423f674fb7e0f9cd51878fdb223813934276c856ca51b7c0631777; 0x2a5d780469dd3ccee22b63b02a0f183dc06ebe9a5c75679a80ff39aa7b14f49a; 0x4d091ad2b5229339a5d1bebe0760521e41d61cd91a91707870b854b2a0d8384; 0x56486132497d05b966389452612a446dd527f2f455f460a8a1b7c0b4093b822; 0xca718b3999bb7e77edb0ca36faba1fca63181e33b9f98ec10707a5fe8038e92; 0x3b]) = zv.
Proof. vm_compute. reflexivity. Qed.
Lemma bn_zeta : zeta (m:=bn_q) 9 = (of_Z bn_q zv, F0).
Proof.
  pose proof (x2_ring (m:=bn_q)) as XR. unfold zeta, gam. change (N.of_nat 2) with 2%N.
  assert (E : ((N.pos bn_q ^ 2 - 1) / 6 = (N.pos bn_q + 1) * N.pos ze)%N) by (vm_compute; reflexivity). rewrite E. clear E.
  rewrite (npow_mul _ _ _ _ _ _ XR), (npow_add _ _ _ _ _ _ XR), (npow_1 _ _ _ _ _ _ XR).
  assert (F : npow x2_1 x2_mul (xi (m:=bn_q) 9) (N.pos bn_q) = cj 1 (xi 9)) by (rewrite <- (x2_frob 9 bn254_q_prime bn_mod4); f_equal; symmetry; apply N.pow_1_r). rewrite F. clear F.
  replace (x2_mul (cj 1 (xi (m:=bn_q) 9)) (xi 9)) with ((of_Z bn_q 82, F0) : x2 bn_q). 2:{ unfold x2_mul. apply f_equal2; apply F_eq; vm_compute; reflexivity. }
  assert (P : forall (c : F bn_q) e, npow x2_1 x2_mul (c, F0) e = (npow F1 Fmul c e, F0)).
  { intros c e. induction e as [|e IH] using N.peano_ind; [reflexivity|]. rewrite !npow_succ, IH. unfold x2_mul. cbn [fst Datatypes.snd]. apply f_equal2; ring. }
  rewrite P. clear P. match goal with |- (?l, _) = (?r, _) => assert (Q : l = r); [|rewrite Q; reflexivity] end. rewrite (F_npow). rewrite val_of_Z_small by (unfold bn_q; lia).
  pose proof (powh_ok (Z.pos bn_q) 82 ze [0x0; 0x0; 0x0; 0x0; 0x0; 0x27088c641d580fe7ed799b22998a3d8d8eab934; 0x19e05c2e02b9ddb13fb55ed16aad63d894dd87acd6f32cd53dd9161a1542387; 0x9; 0xee663520e98722d2df805ed4ee7954569ff3fca39f02fda8ac32c7e5097325; 0x1b4db3108f3e6cee8d7576c2fd22b98be893f52a9a853668c9f653661b962aa4; 0x63da7910520e68d6a3ce5fd5e8a9f5ef02eef8737669611aae8539920286665; 0x24a4da3ef214169caf321127d989ce04ff3e6de6c579a66e5f09a7aa09cbe610; 0x1c2dd38dfa4001ed342d4d6996d009a1d2ec8a472d0f8381838068a5224cc35; 0x48; 0x29dfe05e63d7a23f7557da9eedd85e6e5e156cd2acea795c814b9b028f94416c; 0x298d0bbf80f4f2848849271172cfd826a7e9cc8f4b7ac37e42a157096aaa61e9; 0x16; 0x236a29b6f5d316448aad492261918bf7f134e4459315af2ceaa9b943e4b188c3; 0x0; 0x3f2afba10921172de715ca9d23b43578d1e56205d3b1fc0520917534ebb5f2; 0x61f1dbfc7a676affc8599d5d9d9cccc4a14f5c9cb15007b1162883eed9a475b; 0x8; 0x77f17cb9ae3e8b654163b9b07ddd81b6cfe97aec21cc92e8b9b09ce555bb98; 0x2c; 0x1e80d812cf56184f21f4fe3371351388c6365bc49988a41b1b87d64abe6070b; 0x13; 0x2e3106e5ff1849f35dd521fee129a7ec520c9793a25a3fb1f2187f81174c298; 0x3b; 0xd885f3ef2524cf58cdd6fa822e051893c8ec9ce7311aae9cc84abc5e0bc99d5; 0x1e624f66545a1eb1b791a961df8f64181e8216e0cf06445dfbc44b849e267ff5; 0xe; 0x469becece9fbacfb4ca41a0a2b990af4fb1f270e6952268cb2a9cdf51c789ac; 0x49; 0x3b9c1d3e3a29d96e6d4430290db659f08e67332a0f1faf42949bfa1de39efa8; 0x7; 0x291e7ae670205f1b088c9508368e4dcd70467bc7e7d96bcbe62f3f5cf31604e; 0x10; 0x2c4df2a497a8dce153c333661f95cc18e3a065335a21207d9ff6b851f1489fc4; 0x2124f9e5070c9b22dacf8a8e8728a00809bbc644b877adf3618b0093910f440c; 0x3; 0x15b1c5d14b5f8b6bdf71ca5b5e4e5568a70b5cae5508c81acaa0f4e80995949b; 0x47; 0x2f8f5df0fef5141b0bac3b5dbd9439d23c1c5d599ea69e1cd23f50295746e473; 0x1c; 0xec65d0cffa99482315475a4372eaa6361dec18d8f02c6bf10b36535c79; 0x7e0ca54a1d6d703249af4ddfa73aa0504a6908f071467f1f2b6de88881fea3f; 0x15; 0x2bc9ef668dcbb72717de6f065bd46b49ed96e05abb2865096ae7bb9ce696d272; 0x713ec34459755a6fe0b260e2fea67090229bd735a73bc8b45eb00b526551ac0; 0xd92fc492ad0f58a13fb5fffb9b36c6ba901f55c8b70f30f94f8e5d10dc883ec; 0xf995a5f205e01d5309e39e5a43d38ce67a0695a2c0e4479001d725446207afb; 0x161eba8356cce6c448a77e25907bedc3e973ba91c6b1ab79689b9f14cb9ad7; 0xc627108cbdcb2e0ce6da093300486fa8b4309dbcc4d3116c3b05e988982d88f; 0x3d2cd3b18f5506a519f706ab8b38ff44bc0e6b1179fd08681e0aec289a20ff1; 0x33; 0x21686e554cf3e4291e8d4b7a7dcf36bf051a257e5a1da180ca5d6a071eec3b4; 0x1c; 0x24f05b1ac7bc17a3468629129f61f6de17474046e063c02fe31b5002dc49cfe5; 0x1459a1756d177e7a3c475eea5cd980c7f1e9dac8dc248b610a9340442316147f; 0xa64d666913a8ee1c3afa49427c3f3d4a27793738b2b76f932e2693503301dc; 0x4; 0x266ea1803d051cb5ebd0bbb6f96e8f44111e34f5f65ed2e989d7d49de959d12; 0xcce8282dbf6a78624c89e5325e3b95f2e147d0db1864c808c4518883f65cf94; 0x6; 0x221f8d8cde388de827143ceb01e6e49b38d211f4ef1999811578b8778990892; 0x4f; 0x26defde5745aaa1720b2f6f4e4d94598b71dfe818a361be5e2e113a182e514f9; 0x1f; 0xdb633c97b5317370d6ac17bfd55a6436aaabe472a6e7f921c94ef02fd6f787e; 0x49; 0x285181e556fa329810311b343bad31417c647decf83a3a8f20b0fa07a6f201a; 0x2eb886bfdc9e5eae0d8faa915d4b408f34ba2c2076848ad4749938326140bd70; 0x149467a272cd00bdcba0a74769121c3727ecb691ab0e4d7805e86d608f6260; 0x19305975783ed44d46ff51be67ca2dd691aa6a461bc2aa07ee615d38ec6e6226; 0x1fd2b5410c44b2373217625865f7ef1177be3829054bbc73bf086a1cfa783d4c; 0x5177bef6a62e6d26258a400da149fac3c02829d0a78dd64536e6753e3a98c0; 0x158356a66822dd86a115494c172ce384dc0cae153e20ca200305b36ad09e14ad; 0x234395b914f40af4ac10188949d6050891cb2f9a98b6a9a677f9a1272f4fe3c; 0x2dcbee16a6b53e08c687a5107f228b77307f6a68ce58129fe9759bd43d998a84; 0xd44253a7ff8f036d58b937bf6317629dbf822ea9ec4da1cc82f9004bbd99cfe; 0xb; 0x7eee92c9a198b23b6b3d345b56f0395a033a8908029173a70aa9d2d7606295; 0xb; 0x103815bc012876f148c7832a0d152262549eb4168f78cf1df3333c30bcb643f8; 0x130304d059e075066ded39f4f170af921b94ee43afd42bb6fb695b9622cdca2e; 0x3d; 0x12463f45c05e45d6151355707498e50cf9a918f7fe813529d21829e56d9e0274; 0x22; 0x2426c543647bf7c1e932c45e778ea4334e12174675e1f527c89af4a6d72cce88; 0x4; 0x8396cdcfeaec547b7392335904a942997672e00365541babef86529ac7ebd; 0x1e; 0xc140acac3f312bf9ed79e4000024bb073f75eadc860107418346be92da15099; 0x69620f8c178819423de152b83c3c79f708e5d44cc37410adc100ea0596cd886; 0x1c; 0x12d22786594caa54cef90e7c8062cb5084112d4168d4b7cd3fa1d0ca094f7e21; 0x543ac1e74a987edeb1b0378404aa4bcaab0e8cfd30c2d2c6d433f6b88d8b5b0; 0x288286cc280efccd13ece316bfaf3e669c9ea09876964dc2425488a37628d750; 0x1b8a3a35dfa0fa6d5825b7f7e00e30f27470d165789bb84efc1296f4c96f0834; 0x450724b338417d024ee049b17b355541687cf594762537f78982603fd577a8d; 0x26370825db70db71636d4fea46e20fe7490671c3abf6a1a87f11fe2265c409dd; 0x1dbb8acc298e7a73d34745177716457c3a878bc2908e666520f923e0d4950a; 0x24; 0x1f02e25d36de768c40c0271d9c78b37deb173b1f84e75b5c83d0be1c1bf20622; 0xd; 0x3007f9108ab100a07b80d34dc3eb9297f24c2b46cf2be28a3b0c22cbe78f44d7; 0x71dacb658500ffe0a7c878b4f31d4b1a51f6aa76b69a8da6761b330ca78e681; 0x40; 0x2660bdcc1bdf61200f854b86366ccc95f5e5947af2e0e7c3cb245d221ddd4fb2; 0x15fefd855b5ae9ebbf001e13dc26e1a33aed7878c9562cf804c7db1c4181fbc4; 0x9; 0xacbcf55e997f84717314a357b6bd885d58c54973576a50933f9cfaacd1592e1; 0x4e; 0x26406fb4158492fa88f8f05129b7872afd58bcd40ff4c588250c46902bb5b; 0x2e352fa687f717e2af7c14eb21fc087734f8a6e4b4cce41dc04db2e8dddfa651; 0x59a817894f1b2e8e983713ee9311d8d7f0f48fda859b2094f1b4ccd224375aa; 0x1832ae9010db69d341a7711a8e4cb66966940ab546aa4f614be8169d8e53991; 0x289d168de4e1e6bdd50efba8af3d9b1aa63e93f73570c4d39da91e8de3919229; 0x27ac2257725549b29015c84b367977de82ae388bca866685156a6839877bad02; 0x11; 0x12017cf82550fc293529851b7c4f75090ec105d0c7ba77b2035ae15105b0db; 0x0; 0x1686952a574f9c28c81c9c3196c2da205534ad67e59de915cac07a13c42c7f; 0x3b; 0x301e16ca07c7fbad77de8295b91ddbe59163780fc50f07950d6503b9597502e3; 0x50; 0x26e675c4377d48a5d0cb7449ac04a295454e1b60be7f28e2baf87e5eb6477d1f; 0xb4d6141d2293c09094b38f6fb086abe282be272d6c9db84f4f4c392f8ae1b9f; 0x23f3a36e05351553faf24bddbac5078adabd5a82d7de654cf2e430c53fc9db72; 0x25; 0x19183a96efd3bb434156b45b6d4faa5537ebb14faa0e78ca878a97b97b28ad3b; 0x37; 0xa045414bae71d34a21644ed4c41bef4afddb2cfd60d430d2b3407da1631bd35; 0x7; 0x6f64777491493ba7750bc734967ed09ba7a710d6efa4dad86e6f7d529e815c4; 0x4d; 0x837059d1f25fde4887d5c07a14509d9420b8ea84b8b3d7a50904cd17ca77d5; 0x6832b12bd5d9e928720164351855cd85def09b9806b5f2c765eb7955a90a139; 0x12b001212c3bfd24d2035a3e1a00f67bc9d281a328213855a851bbbae010a69a; 0x2ea22dc81368473f0d2e96a6b055ac4dadc82d828822c753d0f011e7209ef14; 0x1335e9e49ccee256a4e4f8415a21e27f56e5b1d6e733dca433de77c216580348; 0x1746b8e7f09fa4ca947fe829d84e90c06cac968a716a148a6e98b46367dbb74; 0x33221bd36b6ada7c7b0763316bc20740fdb877ba54a8db7aa317aa1633a443; 0xac442cfedcb3de8142c06587f5294493410f1f059b249bac545e032b873fb85; 0x3; 0xde5097e75faa9e25ba230d9780e8beeee2a530eafb03cf50596a984341e0a63; 0x2f3267655b239e5de8e8998d8ec7d69fb8f2592fca4a9ca6a46d944816010bbb; 0x22135e62b7c2062b4f5c2ea8b587d68737d86e8d720477d8990ca6b937139c9; 0x9aae99c0b9ad4f73e24431125e25fe90ce77d7f319c27ce1a5a8cadd0cd5c83; 0x1bc2f791ef042211927dd310e4690c62b489ddd532384fbc06c71d4c84a38cd; 0x1129200f198ab3b3bb04f175db729122c6818cdc4d68eb0c601b3cc6461dafb6; 0x4fedb16cda562255c192d3bdac81b737558ed5314ca155a212fd4819c1ad4d7; 0x55933289501d90727bc7987804c84047481417526fc0bd539ee2cd60c29dd65; 0xe5f4a2e34fa64cb25cd951fc878195e4161018b7bc0a0d9a5052b08a92a0c84; 0x30; 0x1d65300c787389131554b9e5a5dc77fca2399ea7b7a6f81f73eee7f729a0550; 0x27; 0xc810b8293ea063924fbeed79cf9c2b384f632d7ad7ac6e36016230eb1ec7935; 0x1; 0x1c3fca866dd0e512149d88b82f8c0b90408c468c3c55b1b3e31faec7b9faf5d; 0x2884b1bec17916e359552488ef83f4c473a96625b1cfbbbda3b336a70917f1d1; 0x126cbc4bb630633d76afba0bb79a941cc1682c8077e9e4436ab635194fb0a3e5; 0x15; 0x28046f206f87c610bf1a03a3ad49ac0daf5eb5026f491505eaa68d18c5ea0a64; 0x1c10dd41ce953708c1471b44e1f89070f53ae01cc88a13aae4d761ab1aaaf08; 0x36; 0x29e021f7332718e9ffba1e73d42bfbfb0756e94e7c0cb3006eb0dc8c1192ac05; 0x51; 0x15ad9b971c62d6a13d7ac17ae177bf8ea66842be2e1aa36c35868273b1f4da; 0xc13c382a3e5a1a9395c8cc5e823267f0bdb5294d62d2d9436e89debe10a60fd; 0x114e99430249080b604ae6457a32b5b4832491d211539c69de77d64956a2a7a9; 0x12; 0xcdd53ac4f933c841737cba95acba32e0fa1dbb893fdfcc43cf3dc68a21a0bfa; 0x13f07e3e3fce4a4a2eb9e8aa3bcdd6592406cf59be7ae355a21995bae11c18a1; 0x12d910c1e8817376e1ecc6193ad12d92d93d3a64cd41485b74f78295ce80ade1; 0x40; 0xd0f5dece6556cc16328efe790b7ba2fa907ab10d4dc7bdb153f68616b7b0247; 0x1a; 0x169435393ac84f0fc9bba1890ab58642d3606544c23646db4364888cc06f8ea8; 0x41; 0x1d0c454f608683ebba45aed623484ec7ce5ac55fd190914f2d7b662c46eb188a; 0x1f12168379a035d6f07cc2efd4847cf92a009b92fcf4a0e6ac06ac07f0dba; 0x46; 0x136749738ecf54e5fda50ecda0543ece57c0fa005563c65fcf9c91b0d5ee3513; 0x3d; 0xa7a4d6198be84f6fb407ac5204098ebb2001e2cd3fc2c595a6f375573c33077; 0x4c; 0x1669d3474a19c19428e3ff23624505d876db224c0824d0938c1be5b289c689d7; 0xbf6d1af2e65cc4450fbf97bf5047aab7fc9d82f506a486827066a19ce13a197; 0x29; 0x1f597c2c2c98dee4f7e0ebf80b9d164ee4eada5b04a1a8bb9f600bebe56df3; 0xab91bcaff1f826aeab3cbd844de6a15810e8554694d2fd44f2d7527eb90b0ff; 0x16b6c72554fb9598c0030e7f4804da8040911b6ca11b66addfab3333459578ac; 0x22; 0x1c74e9cc7f445fafff3f7008ead2c0ae3b4e95c8d1e5a8df3ea18c6e89b88f80; 0x847878ea651629d1b7d1de0e4fd943f8776a126a1d251bcaad6b7dd91ad3767; 0x25; 0x2de7718e955dcc610d015744e2297a4f4bc68678658688c0960215dcacba986e; 0x8494bf2e0bdb08a51a5ca62a1aafd708fa0e7349a4ddf33a7806e913fa1a785; 0x10; 0x16c8f49b6377f265f70d7146cb1e8c1d6dde9ac8fe8bc8c3d3b2e7829258d57d; 0x40; 0x6679c4114e06c63bff23c8a5d08fc4da87692e626cda6bb0304089a47eb81c3; 0x2e70a7f3bcf320f48573d84c16a366f7ed5f04468d9850f1f8e19bac063e1c7c; 0x1afe5069c1bdd476e6ee8d3b2d3087b78b4fac68f03e410d4024be3d50a3d4be; 0x4d; 0xbd2ad2faf12958e2924e9e2859a6cb306ef004f84e3ebb54df0b65af0307932; 0x7416192e2afca9b38655f41d87885c52d004b9094035b8fb2dc6e47e3b48461; 0x5690d75fa7b323d9a0b21ee8bbfdfea61e437689810e9a3eca466ff4ad8d2d; 0x299d0391324a608cd2f8f31fdaa6a38c5739ce459ad1d2d763a8ab870888fe2a; 0x31; 0x24937c8e19369a24cc963791187c8b5c87cd8f24dd9bf3cb5186d0bbfa51c25d; 0xc; 0x1496805f0f71375b04091051334d3a60c828609ec48f63b1dc37a2f18de0c9; 0x17; 0xa9ca28079e85f0737f3546d91492f06274617b6766da34bdffd96c2ab3c7ba8; 0xbb3df3dfd08f90063adc4545df47a2f3a603218bee4172268ea768956c1e26; 0x1c0a2fac8c9178da33345e9088050c69fca4b77b456d14faef17e7df8a2e55f; 0x2a6f86071f5bd297ca294fc9f1a7b27f1ea3ba18889d68c626f32668ffae3e67; 0x487af0b898f3344425d4dd0b470e9ff09b5d70c26b529454556a42c315f9761; 0x4e; 0x21da5ff1f5f37a8664a33eddeb99eeae176e5115f9efea622c5c9818c2ee91d7; 0x7739980ee2328f81ff9c3353ee40e3eedaba37b4884469c502b20abe81b089f; 0x1f; 0x2790fa1577c4511faf323ac39b720b69f93d6a2d5d3bcc336634180496517fd8; 0x18; 0x273cc746687206050a480beb515ae936524183f392ba29bdd0b30f7152e828b; 0x21; 0x1f25ee296d5cb5c0920e175c63a2e4905428ac9fd62723e6cefb39e92f8c1715; 0x48d50e062fd7abf904dd5ce627633370674ec346b039efc1a1c26547756d04; 0x70d1be5be1983bfeb55ac07a41e9f24992f16035ca0b5c8de9de7c47b83a0c6; 0xc; 0xdc8d449f193bd879482fddafa4550885f9900e653d9869bf5ffbc89b26631; 0x26; 0x700b73653675693a758b7395e8c0ff32d5aced75dfffd76c9cb0bd0a5ca7bb; 0xc503c97e3beb2d7c45fae54f8102f307b5fa4de3333cea24139d1da0c5ea819; 0x22; 0x2ac98bb753be5ab77febd9403f2199f1cadbc129f68779c9ff7a59a0c62bb399; 0x124b2083606034918393259ad6cca40ffd08911ced439b36e8401d44f7fe5483; 0x22; 0x8aed078e5a2370b4c03a197f5bd2ddeda9198520ab759e419cb4e0b906b62b1; 0x3c; 0x1d72263c98785f92e2c2f0564fc3f57e79d4f0aa7a196ccf7bc28299fc2dc72c; 0x30; 0x36f3d013415fc5c4ed4faaefa59a618f1f39c696f08f3cc24c0c10c08cf1a8; 0x30; 0xdadc106c0228afba0a836c3a4ab4e498a37d99e5f1d6873ac265d019ab36385; 0x1c4583cf66383c7af79570118be7734b9e6933a507a342bf1213df999bcd050; 0x4b; 0x2c5d0c39984f490112ad345caece27590b080202cdea8b7cf2b8466b8ad893c0; 0x38; 0xef98832945aef989f075ac3fb9df74ba108c5e333b04187290f2b0aaf5e078c; 0x1dcd88e416dabaae9b18adf61eb3a534c5d8db6979e58581be4997827109371a; 0x1; 0x2b61dd5a8ae533479b1b35b0ccd90f19d4e244ce8584c894a01fe6188ae425b1; 0x2c5dfe83b3254d1b1ffb841a84d24b5d8de3e5680bce5b139b87b07a4c7de2e; 0x1a4f1b3c25baac323433052120442694c6712c16da2e2c5ea7faad531b28e7a2; 0x6d5a0774ae70286382a3507044be6ed94bc9d4b4acf8c6ba2e4875d3612c091; 0x717c4b3e7841aea5186b540ca34d7b6f32b08934002cfdaf8796e4db4caaa71; 0x10; 0x240cb9c8b68e369e2c077aecae12a475464d95cc1caf4b93b2867e3fe27f81cb; 0x20; 0x23d331b35bd16e235842fb32632cef94e786bdfc01ef42f02d2dd3067f658d9e; 0x2d; 0x1676479cf193876f035880db0d0d111b6398ab5e2588f9d92c680c0158635452; 0x483804d8a12a928875d4053b4ad62ddaede5683c3eddc19b42750b57d7f9bd0; 0x10ffcd10dda6c137d88dfc5cb159fdb7d8f3d0f0c14597b180210721ec7204c6; 0x19135f7d76a4fe0a49a432ff88209f691a8a6df3d837e8b9ad350418ac0a8d70; 0x3fe2497ffd14c16364fb429dadd350c6cd2cff2c7d21a606d459ae25c4ceac0; 0x46; 0xb0e55abaf8e638e4b5525c17f52b4cf91a6af120c409a5828a74946d60660c7; 0x1583d6f9b8ab64c4310a8609601b8d80125c270f972aa08fc0b2f38e6c260e95; 0x2b60044f9f43126526bbdf40a2f3c3e315478a60173ff94cfa634b3f78bbca1e; 0xf1deb58589bc8f48cc0ad4d2b033dd2abc7f4d500b4909d322a4327cc4f0c6b; 0x39; 0x17f298a60bf8be87fbcbf7dcf506b3b84161c167e487ac7b9de14fb02a306742; 0xf; 0x1f39ef89fb57ab0d9eb32e1df13c2edc2ea4103af41681ec849709dc65d14c98; 0xd07522d6f2e14f0a2a5c9bb04370134e2df61998831dbfa1032251c93fc7314; 0x4a; 0x10cc87d5f5570eb34bf73b3185a2b2f8dd24a1ab53f8ff660a9b1b78c2e25d6d; 0xa7fc743ee729072b527a584540fc06be202d02d2a3947521fdee2cdc680db5; 0x3e98f50f6183df8b59048a67f166890a190017142f56924c83a862274501d7e; 0x2f; 0x2d3a21d836c2387fd4f7d43e8d28ee11a22adf4018d21918a6c8b9ab0f1f9bcc; 0x1657d2431226596889b54ea2561e3feaff2bcf8e86ba92097a7ed2e5e19bdee4; 0x41; 0x6468506a13ce8dc5a60540b79f0b5541bbbf65f19cdf88b9c5d9b11c7393fbb; 0x9; 0xa5fe7359c87b1b42d2e0b9ccd09892c231e4183a2c75c86835d029388570a19; 0xe28f79d6a5ea032c8b077b1346d03522af976037bc4fdd2cb323a58f656f867; 0x1a10aeea1fd183b719cd96f9b61455a20fd06da5798fdb784d19b45b9b7c3b00; 0x4d44f1818596a6da99852d036489d53b9670d1c4fa2f59aece6d12dc732b38b; 0x2945875cbe24206cc5741923c34e9e44268899a969eec251a3748057fbc865b6; 0xc0608d853bf813457dfb0494a22fd190d6c226504e768bba437cd7382fefb37; 0xe3aa8e43d56d016c5e13d2a1b7a5d45ead2749b4faff7b2d78dcc8ce6a11b8c; 0x1740ed13323d4bba0d754c1263f46501ba28921bcad023ac4ab932067c6a3bb1; 0x37; 0x1a6af2ca60667b45e88ec159c37aeeeb60638b7d8f162654920b17d8f35cb2b1; 0x10d8dee58417c7c709ea03eb989c31437bb13346a1e41e58450c368f40c7eee; 0x2e; 0x8572adb87fbc184ba546060ff9ede2a91c5f24de15d65db5798653240d0aebf; 0x39; 0xa45ca4005040293b94f6647746d253cb46d68779f086589fc325aa6e6973ab1; 0xb; 0x89879d5a223dee00cb9eea15b30aa08e0da3373106a070d42cfca217edc75fe; 0xc36e6102762bdae0219dc41db789c9d26fd35e03d72a742c1eec47cb551ab8c; 0x19; 0x184c4c3d0241d28dfcbd5245e50d5ae05255754484558ef5b7963d0df1429ec6; 0x12ab7d262a691bea4031022729a8f77de5f84b3aecd8642ee4f969be4a41500b; 0x37; 0xe3be47bc4e37c3fabdd1c0b81b8eb3acf5f3395ef772ef1e97705472b17a489; 0x29; 0xfbc2c0eaa01a48bd6d601c6ca47fedf8f96ef8e616eae664882f05e9f8b127b; 0x1aaba014c0c5fdb5b706ca6572c2557f24e70f93b20a408f20584ddbe9cf8064; 0x2bcc8f8798973216e5ae2053e10edd3027383d8afdce7657f741c4be206422a7; 0x2e; 0x13b0267ca6fb5c6aa75c80c827152957286b57dfe52e9ccdef569fd9338f797; 0xa30ad4ed4ec92f0d7ec7d47252dd9b1f645379a6fad52b1c6cfd4c674c168a; 0x2e488e88ee6b7359229df2acbf781d086ae08101d3362a0976e58a0907148f19; 0x46; 0x64a24fd450f1f45763bf32794017b1d1218317994dc4d8d7fd734ae4c95e1b5; 0x22b32ca2b60ef4d3cc8466d2d5a6947ee8bb4a38a74a7182689de5f30992390; 0x19905b8a3caf4252382113195ffff9ed3007a10fce858d910cf4de86ef24addf; 0x30; 0x19dd0f81a55185b3ead2b4037a227a0c5a623bedaef359e2d516c2219c4a019c; 0x2efda0c458e636fe8152eef1bcdddfbba06d26718048ebfc77e7d39df8608622; 0xa793ceb7c4338777e73efe0462e5a14c594b837f80d307a6c23bdba50c817ea; 0x171f2c40e27654c0862299895c8412a351860b2e97477be1404c5207dc2a12c; 0x75be0f1f4892a92549ec094139c330e24dbadc0db02397ebaac1415bd52c9e4; 0x7c5cf84c57fc9d87532ddd5497275086c70e68a3e68cec62802c95c36396820; 0x34; 0xeba8c53087a7181c708c28026dea88cdd36af5d916feec2bc51a141a37af40; 0x28816e2245c350df1a2762d0adc799d1726d5bed8ac5ed97d447cb3a32b04369; 0x7; 0xb54e762375ed9ed9b16e5328313c571e0418159ca38403fff7d17b766ac28eb; 0x7d99f26ec977f586fff60786ae0ac1e3c3dccade12620f41decfd7f7437e75; 0x467d1b69b658591f970140ab0fb91900eeb413cf01b76925093bc1db82d2eb0; 0x43; 0x32c71ae00f519be53d95831f97b9376d1601b78ea536bf4f020e11e44594509; 0x2f; 0xc8291774706cdd2108945ce50d8fafcbf92bc79256b371a137deafe00397cb8; 0x173b9e9975bd75d0848de33f41fb92a580de1dca1f55529e0ad7c044768465ed; 0x1b; 0x1632a69a772e143db6ab18304a95f535501e2ff619382f364cafdd908fe7ff9c; 0x1a272c62f1a222edc24021dcf238eede68aab04cb04e73a8bc2a651f5a841516; 0x1d; 0x2f4725072342c0915e551b3cf8d78eaad1b3b0dda561e1c75c705250598; 0xe65ba5c559f528a97d99df9f6c224c660ddc0e43fd38d1c31a50a19396c617d; 0x2412cc6fb6ce0147c01f49848b1b088f8491c8d8576616e37fa476145c61315f; 0x16; 0x26d94eb8399d9cfec3899a53a574f067109763b84d26ae251bb7946c767b31a4; 0x2f; 0xd793bd2f97cc91b066095403226e61ee7c42690ee970fea59ff96141aa30c19; 0x2e; 0xb575ccb73423f674fb7e0f9cd51878fdb223813934276c856ca51b7c0631777; 0x2a5d780469dd3ccee22b63b02a0f183dc06ebe9a5c75679a80ff39aa7b14f49a; 0x4d091ad2b5229339a5d1bebe0760521e41d61cd91a91707870b854b2a0d8384; 0x56486132497d05b966389452612a446dd527f2f455f460a8a1b7c0b4093b822; 0xca718b3999bb7e77edb0ca36faba1fca63181e33b9f98ec10707a5fe8038e92; 0x3b]) as K. rewrite bn_zeta_pow in K. change (Z.of_N (N.pos ze)) with (Z.pos ze). set (A := 82 ^ Z.pos ze) in *. clearbody A.
  apply F_eq. unfold of_Z. cbn [val]. destruct K as [c K]. replace A with (zv + c * Z.pos bn_q) by lia. now rewrite Z.mod_add by discriminate.
Qed.
Example bn_primitive6 : primitive6 (m:=bn_q) 9.
Proof. unfold primitive6. rewrite bn_zeta. unfold x2_mul, x2_sub, x2_add. apply f_equal2; apply F_eq; vm_compute; reflexivity. Qed.
Definition bn_table : list (x2 bn_q) := map (fun j => npow x2_1 x2_mul (xi (m:=bn_q) 9) ((N.pos bn_q ^ N.of_nat j - 1) / 6)) (seq 0 12).
Lemma bn_table_ok : forall j, (j < 12)%nat -> nth_error bn_table j = Some (npow x2_1 x2_mul (xi (m:=bn_q) 9) ((N.pos bn_q ^ N.of_nat j - 1) / 6)).
Proof. intros j Hj. unfold bn_table. rewrite nth_error_map. replace (nth_error (seq 0 12) j) with (Some j); [reflexivity|]. do 12 (destruct j as [|j]; [reflexivity|]). lia. Qed.
Notation z := (of_Z bn_q).
Notation W6 := (w6 (m:=bn_q)).
(** a non-trivial cyclotomic element, [(1 + w)^((q^6-1)(q^2+1))] *)
Definition bn_y : W6 := ((z 1, z 0),
  (z 21888242871839275221703892395066968154193270235986866857526138384767021740407, z 67814168773788366812880115163869600645362438734775558522),
  (z 1346968792113186169150395788740599270505818835151198025500331630843550401980, z 10775750336905489339979403399036062635534928224255012078156977493467169304044),
  (z 19194305287612902885030640868156690416690755329617341222014173652714534340975, z 336742198028296542151970609637573084000694478460060305084358030241336483451),
  (z 2693937584226372336673251526910277737502514906369525635511964732052487399432, z 21551500673810978680162249304393490371508496794001632958250042303138665283654),
  (z 20541274079726089054181036656897289687196574164768539247514505283558084742955, z 11112492534933785882131374008673635719535622702715072383241335523708505787495)).
Notation wmul := (w6_mul (m:=bn_q) 9).
Notation "x ^^ e" := (npow (w6_1 (m:=bn_q)) wmul x e) (at level 30).
Notation q := (N.pos bn_q).
Notation WR := (w6_ring (m:=bn_q) 9).
Add Ring W6ringb : WR.
Add Ring X2ringb : (x2_ring (m:=bn_q)).
Notation EASY := ((q ^ 6 - 1) * (q ^ 2 + 1))%N.
Notation one_w := ((x2_1, x2_1, x2_0, x2_0, x2_0, x2_0) : W6).
Ltac tuple := repeat match goal with |- (_, _) = (_, _) => apply f_equal2 end.
Lemma x2_eq (a b : x2 bn_q) : val (fst a) = val (fst b) -> val (Datatypes.snd a) = val (Datatypes.snd b) -> a = b.
Proof. destruct a, b. cbn [fst Datatypes.snd]. intros H K. apply F_eq in H, K. now subst. Qed.
Ltac num := unfold w6_mul; cbv beta iota zeta; repeat match goal with |- (_, ?x) = (_, ?y) => match type of x with x2 _ => idtac | (F _ * F _)%type => idtac end; apply f_equal2; [|apply x2_eq; vm_compute; reflexivity] end; try (apply x2_eq; vm_compute; reflexivity).
Lemma bn_y_eq : wmul bn_y (wmul (x2_1, (z zv, F0), x2_0, x2_0, x2_0, x2_0) one_w) = wmul (x2_1, (z (- zv), F0), x2_0, x2_0, x2_0, x2_0) (x2_1, (z (-1), F0), x2_0, x2_0, x2_0, x2_0).
Proof.
  transitivity ((x2_1, (z (- zv - 1), F0), (z zv, F0), x2_0, x2_0, x2_0) : W6).
  - replace (wmul (x2_1, (z zv, F0), x2_0, x2_0, x2_0, x2_0) one_w) with ((x2_1, (z (zv + 1), F0), (z zv, F0), x2_0, x2_0, x2_0) : W6) by num. unfold bn_y. num.
  - num.
Qed.
Lemma one_w_unit : unit12 bn_q 9 one_w. Proof. apply (w6_field 9 bn254_q_prime bn_mod4 bn_mod6 bn_primitive6). intros E. apply (f_equal (fun a : W6 => let '(a0, _, _, _, _, _) := a in val (fst a0))) in E. vm_compute in E. discriminate. Qed.
End Instance.
