(** Primality of the two BN254 moduli, by certificates checked in the kernel (generated; see Pocklington.v).
    These are the moduli of [halo2curves::bn256::Fr] and [Fq], the native and base fields used by the tests and examples of /repo
    (e.g. halo2-ecc/src/fields/tests/fp/mod.rs:1-40). *)
From Coq Require Import ZArith Znumtheory Lia List Bool.
From Verif Require Import Pocklington.
Import ListNotations.
Local Open Scope Z_scope.

Lemma prime_small N k : 1 <? N = true -> N <? (Z.of_nat k + 1) * (Z.of_nat k + 1) = true ->
  forallb (fun d => negb (N mod Z.of_nat d =? 0)) (seq 2 (k - 1)) = true -> prime N.
Proof.
  intros H1 H2 H3. apply Z.ltb_lt in H1, H2. apply prime_by_divisors; auto. intros r Pr D. pose proof (prime_ge_2 _ Pr).
  destruct (Z_le_gt_dec r (Z.of_nat k)); [|nia]. exfalso. rewrite forallb_forall in H3. specialize (H3 (Z.to_nat r) ltac:(apply in_seq; lia)).
  rewrite Z2Nat.id in H3 by lia. apply Z.mod_divide in D; [|lia]. rewrite D in H3. discriminate.
Qed.

Lemma prime_853 : prime 853.
Proof. apply (prime_small 853 29); vm_compute; reflexivity. Qed.
Lemma prime_229 : prime 229.
Proof. apply (prime_small 229 15); vm_compute; reflexivity. Qed.
Lemma prime_639533339 : prime 639533339.
Proof.
  apply (cert2 639533339 2 853 229 3274 0x1233516f 0xf4320ed 0x102bafbb 0x121e58af 0x7411c29 0xaa69589 0x484a72b
    [0x0; 0x0; 0x0; 0x0; 0x0; 0x0; 0x1adcf6; 0x0; 0xcaf84bb; 0x19d7f276; 0x448c556; 0x1; 0x12317599; 0x133891ba; 0x1; 0x3f12176]
    [0x8b0a619; 0x6256372; 0x87bfb46; 0xa250222; 0x1a0910a5; 0x19ee857; 0xca0f28a; 0xcbe70f8; 0x3806243; 0x22258e5d; 0xc5a679b]
    [0x8b0a619; 0x6256372; 0x87bfb46; 0xbd7b16a; 0x9b48430; 0x12e5c490; 0xf0479fb; 0x11552d46; 0x19cac160; 0x1d4fc1b; 0x8b0734b; 0x14f6a927; 0x147b916; 0x418fd65]
    [0x61c57f7; 0xcd2e097; 0x4123d50; 0x19e0ea64; 0xf0019f2; 0x21c6850d; 0x4a405a; 0x2943bc; 0x50a949b; 0x8d99838; 0x325e4d1; 0x7a9b2e6; 0xca75f5b; 0x689940a]); [exact prime_853|exact prime_229|discriminate|vm_compute; reflexivity..].
Qed.
Lemma prime_65865678001877903 : prime 65865678001877903.
Proof.
  apply (cert1 65865678001877903 2 639533339 0x1e8949ee7b99cf 102990218 0x8aac914b371ee1 0x1218ad8faaa2a3
    [0x0; 0x0; 0x0; 0x0; 0x0; 0x0; 0x0; 0x46043b1c170; 0x3d258bed0be353; 0x2df08ac5249a14; 0x2f05b3c68ea47c; 0x0; 0x519183e663f2ae; 0x0; 0xbd44c0b3c76576; 0x1; 0x20b0930833235; 0x484066cba3fc5d; 0x3fa0e5967ae508; 0x1fd315447d30a9; 0x46fd931cd54883; 0xa639e77c3021; 0x571c1d37889a; 0x1; 0x4e1f1930f2d59d; 0x0; 0x1710bc478258e3; 0xa10460e7f600e5; 0xe0d8a501efc92c; 0x6cbe137c4bd569; 0x0; 0x4ca2100e630324; 0x74a6c3f1f00b3; 0x1; 0x30845ddc3d765e]
    [0x3fc1fbfa4564c; 0x13f02244cb7c05; 0xaf0d6a6e595b89; 0x183df65d5d97e; 0x12af1e1b10d666; 0xcbd62b0fa2157; 0x672ad9adb622b7; 0x7e9a3d13fab0af; 0xe2a233ffa6d26d; 0x8e1dbc247990a7; 0xca981c06884281; 0xf2c09fa49813c; 0xb85f3fc8c05683; 0x137d181a051f61; 0x222594f35f45c8; 0x1301f91f59dacf; 0x650c91dfc7aa27; 0x17214bb490c67; 0x10a414b0b70004; 0xa50dad1ac384f6; 0x645c0e146f674; 0xe54c00514d4; 0x81fd8f47ccdf7; 0xc55f6e4c05c3d3; 0x8e4fc45b41f15f; 0x42cfec063e22a6; 0x5e240b86fd5d27; 0x4fc802eb9a8238; 0xd4e46754b16b0; 0x3e88133ea10989; 0xddec1b5fc3d7d4; 0x2c3df26f6dd9f; 0x3af51b6798ebcf; 0x1466e60da95e1a; 0x6fe3fec663a79b; 0x1950aee65bebd5; 0xc641b5bb585921; 0xaf5c6e2ce7904c; 0xa94a3ab5f2477; 0x8e3a0ab2990f70; 0x7d41f53138b92]); [exact prime_639533339|vm_compute; reflexivity..].
Qed.
Lemma prime_13818364434197438864469338081 : prime 13818364434197438864469338081.
Proof.
  apply (cert1 13818364434197438864469338081 2 65865678001877903 0x19a3e92405bebb4bd6527e50 209796131360 0x27af4995b5c971ff1be1666a 0x16ca0897b6da76cad031a955
    [0x0; 0x0; 0x0; 0x0; 0x0; 0x0; 0x5; 0x1; 0x9bdb32c7e7bbcfd4b2e5144; 0x0; 0x2db874a90954f6ee77e2968; 0x8484e1fad61f9bc6d51a12d; 0x0; 0x2270567660e517954c34a19; 0x0; 0x6fc4b407b92432690fb883a; 0x17efeff9c33a356055be395; 0xb9b929b76a97b3541559e; 0x243d535182bfce115f908d7; 0x1; 0x1bb264b31a5d1c69f1b1586f; 0x0; 0x92c6f2405ca367b0949073; 0xe6bbcb7fa24803616666b; 0x1; 0x30e40e4258e9b06eab001c8; 0xb39acaaeb35dcbe7c6a642d; 0xa7c8f0fd0a28ee04aa04d36; 0x1; 0xe4c0cc0e3ae56a28ed454ee; 0x17b684d8fea9db05d810fa5a; 0x0; 0x368029776dae9573fafa2ab; 0x1; 0x1a316808d9e1472e4190eed4; 0x0; 0x3a2bd2047c5b7de8a6e4; 0x2be8f46e997630b408483555; 0x0; 0x210d5aaca497ed41c904705c; 0xa7c8d7aaa1a5e9be5bcbefa; 0x0; 0x135fc873a63ac250ebdaeb68; 0xef13772a1cac9820b11a785; 0x27fd13bbeb1f722cce131445; 0x241a8c7fb78f3b510c4b68; 0x0; 0x1cb0f4ac41c9eb05ed450d; 0x136643400d3b9b9cbf10b4e0; 0x2af63dfa822b7b5cbe343303; 0x16b18712943807c5f547a2d9; 0x1ecb4dd758f5c9ad8b76b249]
    [0xeb95dc3acfe0cedd41b7989; 0x103682620bdba4072b7dd9b4; 0x87cb87fe22068b2be04e23d; 0x1425d90b4b97ba4f1b41ed33; 0x2740f437802f2c02c04af08e; 0x27b834fe311fa1cb501b0a8d; 0xa6e14b1ee0060af782ff509; 0x144ca2dd4bf1dee9d202bc86; 0x2d7eb20695dc8c453c02ed5; 0x71a0aae4f2113594133ae6d; 0x12d0f717f813853e86abe4b1; 0x27cde69b3318294579850bf5; 0xb4616fd816a319ce96ed38; 0x13698fd4dc80ded38acdfba; 0x199187769c290e9db93f7db1; 0x1f5e0781420700aa501b92fb; 0x49c898254e9532b5b2d716b; 0x10609f877266b0bdebe2c7e4; 0x140f56a674967cc98fc9590f; 0x195ae00fb0e0cd4483640667; 0x1f26543c1c6f5f2b0fb6bde2; 0xdacf97159337841db6e995b; 0x3e8f486734e1b59dc488cac; 0x998852132574b670e49e42b; 0xeada051d4b7a2e2f1cf1; 0x198e877e8fc940e15cd55e4; 0x3bbd17d5e9a05a3aeb5a825; 0x1802159772809790540873a9; 0xc2a8ca4e1a15a346ff27a8b; 0x10b9d1dd1f27e962858d6685; 0x281ea3b9d927182ef0193c5; 0xe2a475e02e3f63501896557; 0x2272003f8c467cecb5252cbb; 0x21f5764d8dfae646e98321; 0x1503be7c54c0ea87bed24354; 0x129bd2d324bceae385d6a0c9; 0x18db36ea401f508f5670f2b8; 0xed3c924d67e914b3612e22d; 0x24da481cceab67f45754290; 0x2470b15dedf147872cc24500; 0x164740f46869cf3ec66e531f; 0x13790ebced0e5b0ff5c7d3e; 0x10a04d6fc92e3818b204898f; 0x142aab16cb6ea7f1e9921e73; 0xca1c75bce3883dad5d26dcf; 0x1d8c0cf62babbe73c9b265c1; 0xd507af86c9daba7da20ea1a; 0x19c211dd1d318513ae08ebe3; 0xe9b5065216be8c09a78f019; 0xd337db1b021e02613e6f63; 0xc2be90a03daa686d40ba726; 0x106a8bb29c52c62247b72f8b; 0x26ef58beea261bd81231b4c0; 0xc283056879f7f767c4b623a; 0x1a601a94ac44f9ff54d9b17a; 0x185f4e14ecc2f3dee1f5acd; 0x870f06d62e58ded92062; 0x11c27fea2429dacaa3843d99; 0x808d3947813a4653ddffb5a; 0xd0ccf6bec175cfdadbe1fff; 0x7a3d0c884a5784e80b94db0; 0x144b03a5a428d46f87d00f84; 0xb3d018c71beda944a4e84db; 0x15a84d74db6748f6b2ee03a7; 0x23940d241d3677ce0bbf999; 0x1533f08d4fd7b88e4ab0d7ad; 0x24847c71de0f200524d3a1e; 0xcea55d3f038bce387397e4e; 0x22fbe3c20a1d5cfa90e7f66; 0x37bb63b437b6b3568684601; 0x91f6fe17bf11d69eb010126; 0xd9811d36b06ffb816ac8136; 0x15c98e4a9d1b8ee3b67614ad; 0x7bc6e9ddb1035464cb6be7a; 0x8a12e9e24573f6f34d0c3e0; 0x13ea4a46298fa82c4aadcce6; 0x11ae8a5ff3bcfc257adf7b08; 0xc2abc1f96be13fd96e0b179; 0x14aed6908f00cd50e3d8540f]); [exact prime_65865678001877903|vm_compute; reflexivity..].
Qed.
Lemma prime_93001 : prime 93001.
Proof. apply (prime_small 93001 304); vm_compute; reflexivity. Qed.
Lemma prime_2 : prime 2.
Proof. apply (prime_small 2 1); vm_compute; reflexivity. Qed.
Lemma prime_12048837557 : prime 12048837557.
Proof.
  apply (cert2 12048837557 2 93001 2 64778 0x1b4c424f6 0x11af1660a 0x2ce2aabb4 0x2662fd159 0xf1fa1da0 0x1671555da 0x1671555d9
    [0x0; 0x0; 0x0; 0x0; 0x0; 0x0; 0x0; 0x0; 0x16d04b0f; 0x1; 0x149053af1; 0xfe6dadad; 0x0; 0xc162a4d0; 0x114d5e7b9; 0x2368ecd9f; 0x140cef41; 0x14f0c956c; 0x0; 0x150997b4; 0x58fe3a36; 0x1; 0x1eeb4845f]
    [0x109a09932]
    [0x109a09932; 0x6f794683; 0xea3e5f3d; 0xd2da9498; 0x6c160ab9; 0x8cc5e243; 0x1cfb195d6; 0xda5a1b0d; 0x15d4b72f0; 0x1a0604892; 0x178aa776e; 0x63cc233f; 0x1a66eb50c; 0xef7a3e81; 0xe32efe28; 0x12801cf86; 0x21eae8; 0xa378b751; 0x108352c36; 0x119e4b349; 0x2bae25c3; 0x16f7c42; 0xa00202a; 0xe52ea178]
    [0x6f794683; 0xce91625e; 0x77d7b759; 0x2bfb2efc; 0x54229920; 0x1cfb195d6; 0xb37d91c5; 0x102eaab61; 0x1a0604892; 0x2161f061a; 0xb00453ad; 0x29fcd80c7; 0x112e4f459; 0xe32efe28; 0x149dc8031; 0xaa7bacc0; 0xa378b751; 0x108352c36; 0x12b27cbd7; 0x2fabf3a; 0x16f7c42; 0xa00202a; 0xc5bcc619; 0x7f552071]); [exact prime_93001|exact prime_2|discriminate|vm_compute; reflexivity..].
Qed.
Lemma prime_5156902474397 : prime 5156902474397.
Proof.
  apply (cert1 5156902474397 2 12048837557 0x4512e21e802 428 0x4a0f11df894 0x442b07b18ef
    [0x0; 0x0; 0x0; 0x0; 0x0; 0x0; 0x369; 0x0; 0x1dc2a999878; 0x1; 0x29ca1f2e44e; 0x480d1fb6573]
    [0x3f945a90b7e; 0x4305bb195fd; 0xed2d983364; 0x257a58d3d59; 0x1f927f0aaa; 0x67508b331d; 0x110dc9c4165; 0x55034fad5e; 0x320bde6c367; 0x2cd28c7a680; 0x111d7b18b2c; 0x233e331f554; 0x398cb963ed5; 0xc6b9e97a7b; 0x2c0503f083b; 0x1784a1577d6; 0x43744e2397b; 0x3de74030fa7; 0x3f849f42f6; 0x42bdc429525; 0x8c092d2ca5; 0x231f6fd3fbc; 0xea11f2012; 0x290ae28fcc; 0x34bc1486e07; 0x32687f80e8; 0x1490a221d6e; 0x18d85b5b762; 0x321df870129; 0x219ec48c991; 0xb58dcadd15; 0xd83cd91051; 0xcee4c6dcbd; 0x130f0240103; 0x43d6cb24118; 0x2946755e58c; 0xffaa869239; 0xc7867955ca; 0x38d7d5771c4; 0x3b39441a693; 0x100e6297c17; 0xe6ba8f4d16; 0x2d71c031b46; 0x44ef5effc9b; 0x1e575760297; 0x677a6e0c4e; 0x2006bbd276c; 0x14794091652; 0x3af33406456; 0x2bc67fbd56d; 0x36a0756f119]); [exact prime_12048837557|vm_compute; reflexivity..].
Qed.
Lemma prime_1670836401704629 : prime 1670836401704629.
Proof.
  apply (cert1 1670836401704629 2 5156902474397 0xa0be5150fc4 324 0x29d2d0e172d3f 0x46c8e2fc98c
    [0x0; 0x0; 0x0; 0x0; 0x0; 0x0; 0x2b206cd0; 0x0; 0x51e0e3aae2d36; 0x22f244d65a80]
    [0x1100d60be4; 0x5e05645517998; 0x203b35865364; 0x9df025d7e51; 0x1df95147837b5; 0x171b271c085e9; 0x687bb88f41a; 0x26e1a7731123; 0x12af18fa81f; 0x15555273ae2; 0x336a77da4550; 0xb0c1b16a553; 0x28045f4b2e787; 0x27b74640dda19; 0x1cf02ac29e7; 0x14538fe846fda; 0x166695054f68f; 0x7cfbbe9057f; 0x4e0d99feabbb0; 0x2a32251b7e62b; 0x79470dc2904; 0x4bf15c498eef7; 0x901b4a5b4eb; 0x498dfaae3a761; 0x3a092cc3c20; 0xf76a9c3003e2; 0x8dcdb99f8ca; 0x3f51a6848dceb; 0x3c3307900a5a4; 0x44de74513f9; 0x12d0e18db286; 0x34c70458f0301; 0x9eed3ea9bf6; 0x894129917b; 0x9a862254a525; 0x785f605cf71; 0x3e7790d7abdf; 0x88146f785de; 0x3b6931e2ca665; 0x382191e51cf; 0xaee9cdd2e74c; 0x1932e5eb54eb8; 0x5cd3e8298d147; 0x58846443bf2f2; 0x5672d7c7ec4; 0x8706b9b89eb4; 0x174469695a23d; 0x1975689230c35; 0x94449142b01; 0x2d0ba0a99fc0; 0x3de24024ed74; 0x25e58244b12; 0x48dcd453f0a1b; 0x4d031b21cca3a; 0x5e6e5545459f8; 0x35af1e9828f; 0xbad152a90d39; 0x78abaf6b23a; 0x1ec6ef0501929; 0x17f4fa0c944; 0x5ee5b62602030; 0x82b35696191; 0x3c19df4725f]); [exact prime_5156902474397|vm_compute; reflexivity..].
Qed.
Lemma bn254_r_prime : prime 21888242871839275222246405745257275088548364400416034343698204186575808495617.
Proof.
  apply (cert2 21888242871839275222246405745257275088548364400416034343698204186575808495617 2 13818364434197438864469338081 1670836401704629 948026174865265269726259848413184 0x8fdf6a009ddb0f44829608cbae4d277cf3727232b632f357b4ae966ddb136a8 0x299662f9e8574586530237c7b2e285cc00b75b8c63b1d725b7ffc6d604e94fc8 0x2200524a255dbf6af47485a398ccebd619e3d57040f03e65be26ba6bf27f8ff3 0x29a1d6cdff4615644953694b0908408f070056350f6009ad0924c654e07a589d 0x23c73d8383bd31e72d4170f080ad61267d480fc8799356051d36e0c3fb58550a 0x30b43c635b2375e9f82f247135e791541018e190295925392ce8c12f2bea62 0x22387b56df65073a8376d6f2a56667189fd17f4bea5781baee74f63a0e4ea3
    [0x0; 0x0; 0x0; 0x0; 0x0; 0x0; 0x0; 0x0; 0x0; 0x0; 0x0; 0x54a47462623a04a7ab074a58680730; 0x0; 0x13bfa938b569f09ef11a5b8dcdc1c55fc8a817db36db5d7f6fbc3bb7f3f0d2d; 0x0; 0xc130e4f09a31f4a2c652374b82c1270816bd2b4f8706922273265ca9a4642; 0x1; 0x1c36b3080af66b5aa16f62214e5a3f4eab641c62f38474b7e37987ab22e0b2e; 0x0; 0x3cb28b6f9ad6ba3b585de68876627975210c2e8ee702cca6ca0422eb70934fb; 0x1db3b2650ecca67223430989ceba4bebc0cd19f0a7eb6cacf7faf2f90db8729; 0x1; 0x282e52b7f1fdbb619affb5d1121cf35af2aa6b8385bd83ac9185eea1e004b420; 0x0; 0x7b6aaf2b0882451c9872c7aedfb352fa007c64b0939a38d5beb8fd7d494328; 0x0; 0x5e683accce67f54ab0863cdcfda5d998de7132aabadddd83117e8d675d1ef71; 0x131cd5a97448e848f914ea6350164b5a18e16837588f248d5571e8f6a09e9ff; 0x5ece763268a769d6bf4b31744954c8ea8e9a2451df579f416b30e3e2fccba4f; 0x238f755b1423b0cd4f17dca8f3017c4612442a6222c051813499c1facd8b25cd; 0x1; 0x662326b0343a250606ffd082f7a34b4296c0553843d59ba9f601a4fe3a5eb03; 0x841cb6b6b5e4413021fe81fd9fef9c45bc4a6b093dc48a935f2d9698b0bff9d; 0x1; 0x2661b74b5537e560bb3f2f67ef05819264cf3a4c799625dd3a765e00a79ae435; 0x1; 0x1e5db0347b9382a140df2a1c789fcaf5ec122216bac2526aeab5052965ff1484; 0x0; 0x31c0a9d43745514c3f2bf1a3bb1fdbcf8ac5f389d1a54098c4fe2c49873eb22; 0x3fdebb1a4bc78a3148867baa9d6108c74afd1b7a816d6b8b8c97b978fd9a78; 0x2aadccfdf6223fcef6c8453dfc6c8384d4a4e426ef3332175790ba58782ed7a5; 0x0; 0x5b3530295cfaa448cf327b76c0d704804490492f04f5a8701cef45a6b4cbe69; 0xdfd879a665c9b701d93b85f3c4f1f5d6e87bab744a13962646ad714f2d4272f; 0x954795c67ee3ca9c5532b68f28bf69fdaab4646e69395c6aa0a99ada1bba81; 0x1a3b822fbdc252f20cc7b34c64e1d58dcd5196c67cd87c7ed5e5613904c9cc7a; 0x22bfb32f1feef39b93662dff0f689701d7ae193a7486094ad5db28f38bad3df3; 0x174c347e6ff0fe16986e40fb123075a45824fcb7e8fa5a9387488d5ba818b; 0x5b2c5684fd4ba6dca00aeb2df3416e66f717cbe233b308dfd749c60da284957; 0x1588eed1c2704fbf34f56053bb4d76ab421713fa7f7f215b65127805b2a353f3; 0x0; 0x155c74c8ff7d1e61aae330ffd5509c9c2f706f69c4ae8d78e065efc1c28f75b8; 0x23d0a62d19bdc36b8d16be19997edf0e71d8e9ca646d387459044eed36fd9bd9; 0x1; 0x28587369aa26a3233bf8af9484f759c25988835751c287a3692b36500dee87d; 0x9ceb92dcd6723706d026ae96db77d92eef5ca73c395be3596a4ed22afbbd4; 0x0; 0x2e616644745ed30b6841b4999b8fb734678d296cd27949b99caf5f68fa712bc3; 0xd6bfd73a79fa1c1129938b7bfc90d7557e6e82d09763518c53a1aa6dbe42e3; 0x189d70624f46b2a61744ff81364c605f9d4a1f339864d04d90f3322c5944a7; 0x1; 0xbbaba19fce6d3f81f9808e8fa98fdf489296e1f8db843eac33f572b2b1db28d; 0x13cf2f2810ebd9daaf65e296396bd2c3dfccafb204ac71cab3fbc978f3f0bd4; 0x1; 0x1244a11b31996087524b5c34d787f9c9858c3daa0e84586252c39fe82b3bf89c; 0x0; 0x15d7bd7f634bdce38037273279910a35426e339d70b292e0883af998833eaa52; 0x17b8903c39400f1e98f80d164c37aaf39f42f360cec4183a029203a8e70a939; 0x24829dd8f9fe8ad69848f771be049f2bbed3426ffd75f04523c473675690ce91; 0x4b7531ebc64cdac0174d6fd19dc2116771c1162afa2c5d3ef9614bf32a3e139; 0x1; 0x63bdf745c4833e8acd30dc8b579dcc0ac1e7886031414ba04c61ac0f6045029; 0x3f98e7ee6f465a9ed8e6fc5aec5b179577b9c88dcd14454b7cc8caa11fac5df; 0x1; 0xaed31be0450fcc891b3267b35121c6a5c795e2ad1c6b7af145a234d2109938; 0x21f405682f762aea003ad52aaa1518ecdfa559cd955c5e2d60159f6378dcbcd1; 0x1; 0x379ac4ce8e23565aa7cf93c1f6e90846618a313e491197453b3663a7b03238; 0xfc05ff715dc5338a2809a549492144fcad08a1228bb261677a24706fd5b931; 0x1; 0x32c437c167a96f9b998c629c01364e94630abd2bae4cf19f38e9c6983ed4169; 0x1c1aa91d7f23c8e3b30d1642fcd90a4eeef715153b76c8e85110a20670d9b3f9; 0x31729b3871b6d83f9d097c64f987b509e79da82646134d0e34f9a5dd3176043; 0xa80f3de61673039efb800ddbb7c90a426756cd4a564f2b950f9dfc9810d14db; 0x1; 0x1c15ec04e997fdb94db07356971990528c01eb5c78e15a4b93e3b3a437eda173; 0x1; 0x956ed3bfcb48163567afa9aef909aed7abefd62a732056c9204acb62fd9dbe5; 0x2e6c6f3605e912fecca35c4b4727a19ad8f814efaa9fa82e5cf89e19b7eb2f9d; 0xc3c1a1a4663a1216eda08ffe8f538fa8026eaaa74296091232984e45c5a8988; 0x0; 0x959effe95eec347ecc840e289c8687a49ba91faa6407b73051367e52aec79c4; 0x1; 0x2c5dd3dbc7761533a2006e1baa7cb96653b928713ee18a5b1624f4999b38ca02; 0x1; 0x8a99fbff705095b14cd56709b4ba5a32a1ff35e272bf55fe051b51b53d22c56; 0x122f34727d6c18e302e312cbc75e6444b033ad15b951f6c42320279cfbb42b08; 0xc1b701522a80e41527dc22416c20b076c7c3380bbfb3936237a8ce141695b8; 0x970b144c2d38211a06d8d801c1740ac4010df3c9f9a61794eae789c8757aaea; 0x0; 0x2fa229fa4a7746400076d796b2fe6ae26d37fb279fea276f9cbc7b90d831ab; 0x0; 0x2861efe20c2ae2d0e924baf21b815fef4a9e6fa4797da5c432efa11e0d6ac82; 0x84f9454d0b6e46d66c6cfffafa13b37587bfecea1c516d9f7bb087eca4ff6c9; 0x1; 0xb09443a0a0715db98c8dd005764e9656e9e32f91302958e94e6190e39871e; 0xa82f8126fdcdfdbd2a9308a0a66b665acc78222fb385cbed17180155d20af6c; 0x1; 0x190a798ff944ae214695b033d28fba1231ebba2a7fa4637341e4cd9fac2b86a5; 0x1750840a81426cf7ed6dc947e7e050ebd16f408a3537ce88b202fd82b607a1b9; 0x2f7d5517b647466828c13241185a682c89913b17e9c6371400c6f06d33c6da30; 0x1d150ce7e5708769a42de4300ba743f01bc8735c4bff95d13280d067d1e1785; 0x1e07ca7b8f6379e7c23754ca781abf48a47f30aaca44a1978cdf4731899905d6; 0x74eb8e17d55c18d6344e39d9ab0b6239a63a33b5ebc08a8e06c073523defc07; 0x19ccd57dd1121b67a53a162ca62064ad17a6554f67161f5beaafdef3b453c514; 0x0; 0x6ad33ef6e0e850fe171160362c4ceab0d7af5730cd6b626af26849426cc1b2e; 0x0; 0xe69fe4ac0c5381a8adc7af6351c9887675bd55cdef06b455225adf1c7ddb306; 0x21a38fdf1d7bd1f07a8e31a920bc89f4939d9aa7c929b52b1a9dd955292e21f3; 0x110d7c3823727a726976c23d469d13d9c8be78b22fa47ea7f3880653135fe88; 0x2f164a6f193776c7d778675deec9639aba84c57e41816dcc02cdb4a1eabc; 0x388604339ac151eb22ad302fe5597c6ee645320cfc43b886ebd23ff9c9fda1e; 0x1114199fe6d5c7bac8a7c2b8df3f055a623ea721f271b74944086c45f0281a1a; 0xbde3b6e641b718a923887b47bf0971126501317ebda789e5fc7abddb48705fd; 0x14c38d45a64f08a91274d4a81e18cb5102ed3b424b85bdc2fe0a7e0b98f32ced; 0x1a37bf4b3d24a68b7654aeaace7324fa9e4e990f54369e25660d40a0b81680ad; 0x74da6cf7758c2b731137f5bfd1b38dc5e8cdfcdd07008caf3c7de263a4080d5; 0xb29e0b39a37ea503ce6cac67d28ab48cedc11e52c82273e6d86b7e9e32429e9; 0x291df0305eb0e62b71e4a5876d3e8204dbb8289fc1f320c7782e29ecec1ede02; 0x13cb9cc2e6ad78ee82f84390db4e761a5e206d7bf58df152838e3f2b4e74f6c0; 0xc867a496738a523b3b5a9a555445913f721bae5265efe533f953b4e7a9e09b6; 0xa1cb70dd16afa504ce8beadbc4e235694a6510fa052228f96fc24c2f06f2e25; 0x2d89a348b1115ff9063a087437b21046ff94fe07d01111bd13728b10702e9; 0x1221a8eecc9b2c0303a160a38261e1b8b4c2baaeb029added524d971ed960162; 0x2542a7c62f5a77d3c65ab87bcfa24cf862b4b5d7708d6d1f6499323e8985f43a; 0xfb62733819f7718a6b374190f039aa1cbad15a2e8cc27b53c7737428b4906e0; 0xc2caa5ac65c36a3e7a7ff980c31d9f07ddd1b8e3db290d98d2ac12d9ddb701e; 0x1338a5cff2ba0bf0ad06168bebed41682874bf4b013d0859a1f1a80b56f15f0; 0xbcf62c9bf533e85575a4e1dd2982b873e9ca6c221f5090d18201af4a0429db; 0x3b6f3be20735f5704f9aedc2bded591dda3f34f512de917fd8f13f017d6c86d; 0xc0c2f03e96754363cdab6a57a9c4674ee98ea5fbebf5511879c26aeeb609082; 0x49d529aa4dddc3e174653b9d6e34fc74d83a88703899aa048e748ee1a624384; 0x14998e09d5acdfc87e7cea295300e41ebd52afac504da9d0411d3bdf6f2e7d3e; 0x8019b5b4c9590bc2f80360827f3bc266cc95ea7dab606414d060ef2ab41aaf3; 0xba62d8376baa7a5fca6e836516cbfc6ef766dc938a98925fad2f7ace8592a79]
    [0x1abbeb46ab28b5cbd719273f78c2c88362f45532d5027b0b765d634d0461ec0; 0x41e8bb23b5392148d7f5afb495a7be347d3b300f9329eada6e08696f4b7fbdb; 0x75fc83cfa53c6e1a4368d8b6212eaa664c647add8d2e4ee4eafdaac874a8074; 0x11b3f0655355012aedcc09ca3d5f619eb44ef15f139ebe6870ec359256730750; 0x25b084131dcf28ad89de383748e10c901456b65cbc230e040af668aee5e6c06; 0x2196494b565a8d7bb6605be8bc251ba5c0f4e9ac32a88d653ed6a05d1f5408b1; 0x878fff7954f1565f1bf622f8970386290e6279ced3106da78d0c35509f73c7; 0x34e5b94ee4f4acff3206528c056ec181ae29939f5a81a7244c398841c48559d; 0x49313d2058fb91acdd0ba660f3ca462f4bd29caf52e82450f80a82c401586e2; 0x1093532777980feb77fbc3cab015fc873b0e983750d8e8bf0d4ac1bbec2884fc; 0x1855a682c05c9a247e74b5dbcfb49e2609fadcfdbe9f7e95230987f4f0b881a9; 0x79c075ffd0abfd6a90db4519c36a9ace18f6726368183442c408e056e62b712; 0x296b391a4fbd5a9847253f6929c86024f9cd6aad218cb42dd3bb1599e03610e8; 0x5875165fa26fb01071dbcf13a51a1b240290c991a50db68aa5b3a002387a4c2; 0x8bc7f997fbe5b2b7abd42bf3138f160eff2c063aa1a30cf559d81566493cb0; 0x8b6de73503ca82f253cfba1073544578b824fdbe8be9c407a27056f1c23a139; 0x6ce4511dcdccfe421e64bd21e539bab96d0121a780a803bb117aff1b8a3051; 0x84cb4b00abd062d2a1db3380046dfcc975f75709c63daeeb6101f87bb645264; 0x2d7dba77e2e63a3fd41370eec1195378fba700ccfc2fe1e7edf5eba512ec1c0; 0x27b62673c78d4f0c9818847dbde3d7c82e756747f8509f5e800d89a49e00721; 0x60b2bc809de670890a78638278d93c09264bd9544f67b79d7647fcdaff973a3; 0x130eb4462a3b4f7da610cb6c5846b22bfd077a0c4029dd06e559177e99302ee4; 0x1581435417a88d11872e82cb71fc03cc278846ec5a4750d671eeb20e307598d0; 0x5d8f62d1461bff3696b2758b88db4556c5627b793efed47422892d2f442c06f; 0x926ba5d8099bac4fadbc4541c1b6c118901ff5da9668c71fbf1f617675d2caa; 0x528e204f019f6c7b8ca33d1b8699a4180176838d295e90e9ef63f71852f2c18; 0x8c8e1345f380ad0bdc20877292effd0440e5de4ddadfa634c8ff7ea80cc2415; 0x8d90b66cd7479f8a2871b7625a94a47ec7857c90d54c306c933cacb51baf8a2; 0x48b5af22c6377cdc1034e23d08d34c9f07bfd75ea5f5d5f9de6d4cfcaef7bfc; 0x13c006352196ebd36176878e2b69662e1b894fbb5da3aecfad76a4ff7bc5514; 0x21f20ba086a091f9432ef6543c43130a591143fe5f59e21911a5fac30f3a8e4; 0x2045feae0a96e4030a1b8e0af8742fff78e434c39b6e5922b27d94b5b97ce636; 0x578d0792f4d9337312f6dd478f54576b940e46b08336224b0010e72b56a0bff; 0xdd48fe5b444499256b2402da3e98b8ce622e4e476c5dcd4c149021ea6561e97; 0x3d9c1248f89fb46b5f3b12ee51468f108e397a7f1b5c09ad189273a78f94748; 0x5d83f49987bd9220c0bfc3a58a9978bb9bcddfd5d93f5cc5e65920b41788176; 0x41d09e48662fc971a435f595035aead4c88fdac298e051747780427b108e18b; 0x5faec4d0b3991924317c1dc77364d9b58e9a0c1fa2dcbdfa32d737a24b8d572; 0x79be2be6a9b9ddc1325f6a17d1da2924005a24b0945958ad27762280e5ee48f; 0x408720807806b13c722d904b7e10260ae4b045b5e13caf16781ff47db33f130; 0x4342f3672a2cee06ef32bafb4b892a22b3d9d5774e0d6a37f3984b9c55879; 0x289516c62cbc81eaad650da7d7374de1dfb688a10fd0d3221bbbd6c3549f080b; 0x749b3b987120317ff3d9e538607864749c86adfbe74bd537537a44b36b1726f; 0x6d88b9655d5762ce9fedd898fb43dbd79dfe1d4443d00a4a8923374d19760d8; 0x785cabb03602073f9c43af4c3154330bf4abcc664aeb791986d6c6aa560cb02; 0x20a7a1fc855d6452628becbaab3038a6a5da8acec3fb027ce2c680b510746373; 0xc3d3d33dc36072691af8c3fe842e54af1aa86998803e90915cadb56feadc94e; 0x4d757211169829f7b7eac6d5b7dbcfe292f1695d32c1d3e2da807301cff4fcd; 0xcdcde0e15f0fb355520faefd0993440c5937e698b80e86cf71132ef88295ef7; 0x8e67b19d48275cd4a1166f85a96af2eb41fb85c2755cca58dbdc7689ab6bbda; 0x1326122127d3782e3b9371dc2077ffe918eba4eacd909b35bdd272923432cba2; 0x6ab3e444e44fd5914111d5848e4f4382c02ba0843e14cb9611da877c9987326; 0x175eaa52420fca0e1e22e138313235fe98d8e55196c4ec1e7b77dc18e4a6ff1c; 0x8d4d6dcc48e8c75a48be4a51aea8ae7309618344af70f791ab5095c9093445e; 0x163314f579feeac12cede8e0e152425af8c291e2c24ef65cbf8811e3cbaa1dee; 0x170b13da224f8a41f6fb006945dce043077ef1996bf56cd8cd7b59d97829e2d; 0xd2c8e0b952b96f4e84cf8e0ad9e1349f6f0e04e8f5d1f32bf7fb16445d53ed9; 0x21f2bbfbedeaa0ccbd52949d1bc0f95f83b240b92d0cb378f3283215b0fb8b5; 0x228ed1e08e0b9fc71b0b84d515d2a4e56140037829933050c06027b8b2b6a77e; 0x81660998493442793fd35762a6535676ed913e8316496035f4ab068917d38f; 0xd07284d05a3a70f5a7aad406132d0ec9de9482ae68f7b5cc6ba9deeceaa2e0; 0x3777f550c260c3b62edd8be2dad8865e962b977be66185a9181f7384eed784; 0x888306c4d8c0b7fab40d2da795f851bf1c8fd5f7722cacf8e05c45f97069359; 0x242905e70dbc132119f4fd54b26d42abb3d0acb3a61f541192e6afa3c9e025a5; 0x2d29ef268056b827863ad803fc8e92c9745f7b85715473cd2e3069730fbfac8; 0x2fcfae7217789908cdaa348ad56b6f1af7346c41d6d78b8d061c847da324a026; 0x1dca2e3b292de3a7cafb9c9d75490ac6b155cdae6b77ffa75d659494f79cf0; 0x998b65aa37d132ea6c01b2778c09dd95747e3f53f7c4052d8580e0afa65414; 0x1e8de28fe018f3de4537e3edb19c12f88905f679bdc536155e45d5e8883be132; 0x6456bfee6494eb945e0053c9fd447e6119073f158331db9d69f8e2f5c0a0a9f; 0x1c8a5afc0c4d0acccf67de8b3fec9d2ab7176c7d807eb56f3cb297a59233d175; 0x2317a88680427a80a664ef8c9e804cde8f06fb27ee387bb82244950f612f5816; 0x557ce80f84abe62b047b4d95b2f8e2d2b635d037469d8810964880fd786755; 0x468c8c1d551ec7e051579eab35a89ee440c8035084a2271258722e3223de803; 0x25f8eee91634da8a29158b56c3a475ba56de5df1e5bbe0ba59c001720936ea2; 0x1a51940c78bf0ba48da2f7227d3ede0b62f1e5caa78f6da603f4abbb02afbd8; 0x1696b973e1a1b44b1593a20b9bea5c8fae3cc30d633bd99af66e857ed651556a; 0x22f8194398e387ddac876dcfda023c08463df6d4a98bda515a2285ff2215fb6; 0x173b3a612926b654aa0c30d3fecd299e33199c24eb805c6a03a4c6246a8f31f7; 0x6d9d9248edb609a43419e9b9ff9a5f9e3dd3f855ce63fdcf9b44664e7111df2; 0x6943b11fd5715687787687388ebcdd1fbfc861a5e0c49113d1a9e2c0c624450]
    [0x1abbeb46ab28b5cbd719273f78c2c88362f45532d5027b0b765d634d0461ec0; 0x41e8bb23b5392148d7f5afb495a7be347d3b300f9329eada6e08696f4b7fbdb; 0x75fc83cfa53c6e1a4368d8b6212eaa664c647add8d2e4ee4eafdaac874a8074; 0x11b3f0655355012aedcc09ca3d5f619eb44ef15f139ebe6870ec359256730750; 0x25b084131dcf28ad89de383748e10c901456b65cbc230e040af668aee5e6c06; 0x2196494b565a8d7bb6605be8bc251ba5c0f4e9ac32a88d653ed6a05d1f5408b1; 0x2af6849e1a0e7c453a930da07921311e60c870835b7b5e7b7aa61e7a88f7d0; 0x18de2f26b96cc47d734111e959833dbf8743ca6ada7558a50df6a7316231bc40; 0x40d750c47b061270e6c00aa9685d895a72209aa905cafa91ad8afa6192631a2; 0x11873d40f41acc62b8dac59226c03c8399aa532adc388c2bfc73cee068bf369c; 0x2af89294fcabb628170251411ffdfcf05cbfa56dc5dc0e2a8983f8b35fdd9; 0x39c032c0033b253129b7e53979c993867945607386de1343518c072dac10fd9; 0x8254c00daebb46ff8c9b36032b5f78535e832fbefe1357385b6d8fccc43e8a; 0x702b30c0e17da9c9f5234de3f6a1761296d8061dc2eb6ffb0bbf00b44e4bfae; 0x1034f9c6a0bca0d5674c7579d7390387fe017c8cd862457d7a3283a826d5675d; 0x398c54f702e8839ccbe7c2f431dfa365435e66d643fcee568c38d8aa7a4461f; 0x194dfac41f821c14c2d04086665fbda04ad698179151c1193a7f62e72b774854; 0x729507ec992b3680af124d769a682fb2c7d251358d65c91cf8b9f61979b5c92; 0x1b8eb74a515f3ef8f7971a9e49e9f28fabbb67b7d5be4597ee46a30261b8b33; 0xb0c1bd39baceb85c0da6551149439f4987744b703e5432e974c6c2d686bc61c; 0xdfdbb2a5742db7322d061d8f228456f2316e1a32f2bb9a76396702ec29d3f46; 0x322179e94eb82b1f56b4935b2c8d99140cfbfd469ab2db5bedbe874bb88c446; 0x1c5ca719953655057f29654df5426c54f857b17065ae28add4ab109ad7dbca21; 0x4deb2cb260768b0960434f00d2fd2c8302fbc1af77537579bd83bb7eec2b031; 0x82a4f5ff169f620e36362a15547cb27e321d99ec632f5a03cfe6c378e51e682; 0x2c0bddd0bb17004ce453e244171e0abd7527841c74e11c06d1f33ecb4259e85; 0x1e136a82f1cf20a3de6ce292daf4c02ef7192645bb45b9e804d2b1719fbf43c1; 0x10c42dda414f4fbdfd02d5a8f91d8ebad2eeb54286fcd1299b2e887bfa60e176; 0x9a49f9cd7ba612515e8d099e0be1782b579e3b1be7d62f69c16743b473ba1fd; 0xec7192aa32ec91ab3c124c585c0f082420dfac1dc83ae95a60321aaa15d64c3; 0x9216598dc00ce841f41312b5c56e242af6493ecbe3ca4fcd229edd4b854fda2; 0x1edcee5e8dec2346db181c24de66759a9935f52a25caec4bcf22456b3827200; 0x207af40a2163476238fbb037559d1af27007c9b144ba0b6e45bf9be0b3bb04fd; 0x4885181cd741d620dd4fedab341b44d82e4a4503f501a5b407b34a1870986c7; 0xf4e48af857b58f4418572f18373e4c181711e238053dd96aad7894cd6e1342c; 0xd42edefaf745f75d08ddb0a4b176d1fe44e48e81b17b9f0812820f2c6cbc35; 0x42270b04596d693232f6eb624e632875e1e9b48b4da86b578b66f99569dd320; 0x6b5245e67e00f5d95ad3522ed3f9871439b6b6af05cef9cbe0e8c805135487e; 0x10c0c63e2630c571d21a5954342bc31435698f8ea43db4e1f9a7200975f7c23; 0x4ee9a720b3381e60d419f6afee2ae255f53a555f1cdc73e9765b79173fd5f8; 0x4edb6747d6cd05dba2b61cc1c9e7a546325a1427e5da4c31660b10a1ce10fec; 0x18322a748a3c1d58e48d82a5993d80f5325da9937af43131e2dfa4f3b2f4fd6d; 0xabea725d5added77f1a6821bf06b727da968e36d7b5420aa926eb32cec958ab; 0x5d0b17795969590b6726c8a8c525cb84312516018e3871cf66594fd08c7f7c5; 0x1f3fba3e33bf6344ea58526c75057eeae9c947b021ded84ccf99233eeb1b7626; 0x12290877aec1e9994d0e4ebcac3e5884f0d03cc7a6c8e83ff1c723cfb7cc427; 0x173980ac2025d33985908cf13ba35d9a210a264c2584ed8d8a48a9f1169a8954; 0x3a4f738a8917a64ad155845799081520b8572cb88007feb8107768825cd0212; 0x7c6bf14f878f8979fa95b5794b7455c183d87f5e1d8dbc84211dc4f5c990f3a; 0x6e327d47f7158fb64dfce70e8c0eaea64de903564f2a5b65f3d6bf812f3c6ee; 0x1eb919e1c7e580a3575e30a81d9262f9f498f8e0a81ff383a58be3c90a76722; 0x15b6fdba4ca16d3b93f3298721a2f7a0bb37ab376b061c9eb3a302c783d5adc; 0x1ac1e98d57d6107f0c9c265ebdb107c3e2e5284b8a4b24225cc0d6daf585bdbd; 0x2b962bd648c27d14faa05ba1f30894db129f6e212ce499089f19534d66d66f7; 0x10d4e24e94bc097db2a1b7a8a3c490e1be5239e34909492e4e43a660decbb464; 0x1960d5e06af55b14ae98642e56e7358f93db0c6bf3c4f1d93ef972a997fa6be5; 0x391302f21dfb3608553bed57a0a644a9cc76544ea56c5dd6af6770813ba8af6; 0x2dce9076107478c047a917c1e2a1245f4c506016a0954f56531a6819083e55e; 0x6e25dcd5de9f432510bb61c72ce7c2a5a7fb5be19849be54c38d77ace013850; 0x1b1f20e4c9c3b4f02ed7a28fe509279b0930c261425dcd57120269b086e4be0; 0x80f8ae67d57d855e9dad835c33636180c57a6f62f752e9bdd9c7263baed4530; 0x2ad1dc60c3416d9b2c732988fceefa500ab4633e18869a9b3fc1f9974193c341; 0x180e902a7f1776b236c20961641ffd58de35f856bd367098f133cfc243dadb3; 0x728732ff54039fa1595902dee9f44552325a624980922b90f05f0d847fb6ac9; 0x21b41bb5ed3819b67bf34db249e1b41807e1a16a3f9b5ac2f2a9a9c81854b34; 0x7f7eb661b6132bed354ee30976e39db89889ea9b07985d65e7aec7cd6d00514; 0x95f3ed5573aee5cb56335657de1f4505db6841b1afc605d09f521fac1f8c7dc; 0x8dc771508c7d0d100d3cca24c4c20fea777076716a4cc491161282a568b131e; 0x1d502e4e865191cf706375546593ae45b5b5cbec12146d64b02a03d795edaeaf; 0x2d3f5456d5ea90de5569d38d8cfeb227e7ec41b6e2eaaac5203136905416092; 0x8fd1cced81a7de00a88fa97da3ee23b750406c7e8a94c4dfd84036e5f95274b; 0x1f8c63be0fa37d847c2a4cf671dd393a46cf16f70eba320655158d643b20727; 0x11d58c0b4b449eb7dcc6c51129aa202be77cedcca8ed94cc1718689f86c6b07b; 0x2479e6005e2d5d52321639f32812f579f69130f305ffd155385fed3cb57830f; 0x1129863cfccca4f7a3308b45cd601a4a7c690239d0f81c2e2ff33d4086a39434; 0x3605925d68250509d33052280dbc128c3a35c3a3eadf98bac35fb93725426ad; 0x19492f6fb93b49117d90bcf96424f65e6aa5d2c3edc19b2200a679b759b31bb0; 0x165c097e3c878f49caba4eb1cda29cf14c12ef9f2b1487e86b2869c650c8e08; 0x4543d51c5e43283df94bc7809bd3c842fccc08e2e91e26f85a9c7ade40214a5; 0x1b762f7ae3ebfbcea28c8635c68142c23bed2dff5e5e0f1b9ecfca6469c0c9ad; 0x12b155c27a7683c0e952d37070dd6f591ef783780a7dd3ffbe03909f1e03774e; 0x3fed4be6563a0375202612ea8e25eb791f6def174c1f3383985d97290713221; 0x2cc561951ada01b0c7d4a3a557ed0085a27049f82ca89bff626f3783d2abf8; 0x149d0f9967ef36579a08590aaf086ee472c9b8af22a1478d11436c76c44a390; 0x16be031f1056e517d9c479478690b473e8c34d830e288fb32d00f94964c333c8; 0x3695e40759e43fae3126b562aa20d5797925b1a4aff8e5bfdbcabdadc6943a8; 0x253f333aefb749a2d8eef93189d17c8721ab3b8f4e4430fca0ec023a130bfb90; 0x3b51e5ec79daf0f5b2ff23fd17ce0c3ef29674f85e24ede23a40375c01e9e5e; 0x255ac40c93309421f13b8a532a28227ba4cb1d9707fec152a189a2750242fb70; 0xa88de3be6582b7ed2b96773cba22fe8e8fe54bc8b19568394bd4daee93d08e; 0x61c976a838057fbbd64c051dcdf00fb28442bd23f585ad7c6c5b2cdddc5a7f4; 0x17b5a964be21ced119c3053345fd772fbbed5c2ecd0064a45769d30520b99b7d; 0x168d3421c65b21fd22cc9e066cf4cd0e14ec3f2695d2d6d275e8fdd201f5133; 0x331599b613400544fb4dabf8f35d977723363c7549770e686fd949035b34f16; 0x23deb9c1291d64d349f0e2ae24fec2223da0a1278ab02f95e89fd2192dce9949; 0x5b7b5f3af00c3f5d340dbc74faf6ccd0521e6b7e1e95322b0a3f5972ca02e0b; 0x188eabe2e6abd39b98feb39a0a0d6abbe34088e45d342c52049bc98c0df5dd4; 0x735ce251b03383180f9884dc31b240e25bd74f0452b8d095951a6d514e79e2d; 0x57c86daca0ea931632cbefde61e406af4c7b9efa03afcf271bd6f801a0eaa73; 0x9fbcc854264e41032fc8a2a6870b423ce699943b93ca34218585dc9dfe9e99; 0x1035dc2a05c6f5400f338a7f6074010e3f5b5f1faff45853a8f100dcc7fd8d5; 0x507233802787fe37b78aa843d4fe65c407bcdc8e9f0ea712c0c2461bc753d7; 0x2487007c4eae4780cc6ebce923c835ff536bfb29012a1a22b5bb7ee8fa5425c; 0x2b42fb9c8fd0b0d2843a0d273422fe78dd68895b645378edb722d90d241d2fdc; 0x18411e537fa4426ce604900323fb45096d3020d95d70f9698e443edeee42ce3; 0x78128a3f4f4b2c45446b0762062ac3870f3777ef27de9bdb62958228910ef86; 0xb6f545aa092c9985ba700f4602ca3528f3ba2266392dde119d136a902d1005d; 0x15aab6b2c275a84e8f23752abe5c6cc8dad1d28de03da52cedff44869844d30; 0x12c242d0a9c5a59cf6209f4a9c9a1e3f8f213ad75e3338cb6ef8f070e296afd5; 0x3887cd86e81490d5129b1273e94dfad9181ec38cb17eb62ab6bae06e373e28; 0xfd232732989e30335254355f38cbe276a6a6256b489b7d4313a2572c4316af8; 0x3217e6cae1a3c3842f88054512be2a8edf2021ee9c4392e91e4c6bd29c0fa51; 0x44b1c1c84e68e86238bacab8abc207f58cd38116a417587fd8d6a616e55bec9; 0x1c9675945364bda689a2b5342601401af576d9e01239121207ceb138289d2b3c; 0x34d7aca27929624ac1490208a4d31a58e40c96ad67a5f1a1b0b8772f3163d84; 0x26950b648f793b06fc3f0f27e6beb3da59faad4c45a0da65d30d7c179bfaf78; 0xbd475e98ec8eb6db65e635f7dbd99b14c8006220f7bb8e42e42deb37d868542; 0x45ec7b01d48216e9006a28e83549c85265a00ca07f487822606d113b59cf37c; 0x3ef1b31f1ef5a1647c679b1549b166fae95eed7437ee672c97d9fae393fc823; 0x196c17fc398afc905e54a2a1ef3e9bb1bcc07117cfb4825d00bbae2814d649; 0x131ab9446c8ff2cb6cfb420c522053cdb04b810534556ab70170ad4fcbf08b94; 0x87879cd525a365e11637372614569e0b80bd4f00ca0f2b9ef7a0531d07a895; 0x336cc687b12a41fc5a5b50681ddab8ec5da8bbecb6155cf0fd31a239af6ed; 0xa0d01df6c853c4ee69e68dd75650682cc787f21e25aa3f3a580bf43660ce555; 0x26f5e68eff6edfd31e02e569391d48b82014aa3240cce4cdb2791af6ecc82aa0; 0x143e26ee1749976b4a41c48c3165eeaa5cff7ea36b8ffa8004a9d46bfb923b0; 0x1dac25edecb9c1f9c36c68ea63a7ddf7290e25e9d250e3e26e1c0ddc651327a1; 0x61c80aa2c1436328fbe7ad378c842219c58213bda8b713e71f3023ad95b2632; 0x159c999e4d5c0181c2952c3ec9b443f58716c1a539ac6b973b44afa997458b; 0x2975ffe51e3190974bfe61c8ffc56263f2fc0cb47ac834e4eac26c6236fea2f; 0x352723dda8c180740ad1eb4f91f44d5c494f7d035977ec4499ca220ebe43183; 0x87e46860278465899203d34510cc260b0a2520cfbf524f2d5c38d907f987424; 0x444f0b9f068bffee528eefded4fc625b60382859a427be03fb304945baff5a; 0x89b52a2d46eee0eb3deb4ab264d612b56c74256af355b91931756d82f925e70; 0x1787ddfbc572f0ac08f8bc5cb10c3f0215f2f408c3e3825e5b3febdd4211124e; 0x57924e9f631f1ab18a91dea289b08689666852e03df4b15219bfeb6b8dd53df; 0x5bf16ec31ad10c17d927cc84c75b749dac20b0aa3b5b48ae4eb1da6170b624b; 0xbe08d3e48f59c55c47d7e3c63a9a4f0aded20274131e856b3f580d74f02d9f9; 0xb6b00e94ea397673a6d0e98a20941a23b6acb1b03a10a8cdb2b4dc1d42635be; 0x165bba1cf92d6f530838083933478571837a8d07baca932cb3ab86d959f9856; 0xb59cb125797436663c55a018bb22b8438ad832cbe219e62687ab682e7067658; 0x56d9f5d6ec027f0b9e05923d2a2e215d3cea48f659f03c3010bec7e1a9d2635]
    [0x23bd65edfea402f3cdb0acc99e970f289d6d84b2f3c6ea111206be8488c17c4e; 0x85688afd2fd8c1e41cdb5d8d645d73c9886711990c631df9a6d6d2e2cd04f02; 0x224fe6dc8ca25fcc6bd1049284114de0d4acb6ef6244abbe166ffe73d4623f10; 0x203cd046c68f5a2ed3e43627bb5bead6ec37242b29eab0f603df0adb6ee02e8; 0x71c82382c66099c2a9835c8ec1374eb1238053122625a888a6fac92557e7064; 0x55d8b5f1b706dbf4159c8202f2861f2b7d3a43d9ef4d5280d247f294497de95; 0x1adee30224f71befc55ad6a7706f7d37140c07bf0379c0c7f4f8eb93b0daea06; 0x22e863972979459ad2a3710b7233d11b5c1759d6011c5cf8f023c109308bc687; 0x12c1c8f825ca46b310b0979515ea514d7be0b87888ea349b1c50c3c1c9e06ae7; 0x1499d57f83c1923672bca63ad60ae7136930bfc9edb6b9932f30f9cd4e73169; 0x3021ed51e21bb02992aebcf30132a4fc9965fe86a4a0d94c3509f25803ff3a9a; 0x225c321c38f0fca5561796fb705063f8926789c53e32933242177908d9f82359; 0x822ddc75d97f617a19f50c060c0a8a703c1b2fb5c4a1201e8cefef73205a474; 0xfb9d2c9d85ead7a6ca57cf7cd7d40cab4f9ec0b1f74e9a78c981132ed58f079; 0x225fc1785054d949d398ba5417ba7d1e57eb9d0e23213d0261509689be111e07; 0x1d68090378ef1e4f402e159f9e8fc633a38c171032969c55ddcf4bb99339e547; 0x211bbc79358c360592c106d83754d72a683d87f15bd3245b51a987fe14d071d6; 0xdbeb64a2faa37551971b0b60251d57dda8327bbf22c13b868f3ce74bbedd18e; 0x2f6ac7e8f3dad71340d147db5e030ecc997156be7515258dfcd784019054e476; 0xf57f4fe3c8c87280808832e84c221d003d9c8d07e36be9b4d0112ba6dc23a99; 0x124108976094e13f6e06ea8b1bfde43ac2c49163ed45b19774a4bccff2dc2b6e; 0x47dfc1ecc91a1d42267bbb12e9d143d96d23e09eb65468522528fa7d4be53b7; 0x2429c9f9bf46f49e8afb97ba267db2a3e160b094b6557ea5e8df3395ed7c257a; 0x1a0169adfec2efb976d6ab27da1c8d0bf7aa55f05cf47127a43d070ba227741a; 0xa7bf74fb2065f85219a2e0958e20f6c7f82f8c144fe3263bde80e50b00341a; 0xebd9f80c98d62f288ce1c41b1136fcde00d11ad81397ae4d899b73f0144f1b9; 0x1313cadc747e2f174099c6853e5f126f01a9f02de199c116ebb9526ec942e485; 0x8a1a0e8e83e86aab62b721144d92d9327301fc6c9d02f73268d80b9a34a9371; 0x11de0258a363f2775ce977159317545e7e15aafd580e1a05323570b63be13dbb; 0x19bfa2c44a0555a7778c18b9df2ec98df02ac39e64cb197c29d4a7dcfddd4a9d; 0x24caff82016d647963272757ec50ca017019dbe43547a37ca15cd5fdc94e82ef; 0xaed6b443470a945b95b07ce015aff44b3151bbdd61cc06379b2efe55c1b9327; 0x59ff41a1d5a767017bd45d5d244cf7c626150bd2486d12c2a93c3c2e0b8a5f; 0x27091626f75e6fcc7785702919f83f2de89d27ca46e307eb812e8722d7bdab47; 0x11adef24f60f0bae56dc36af9eb13469e2b787c164f011bb85e454c9196e214c; 0x1ec539d6990664bc44d39b06b47f4ef6c0ee29ee957c1c51d96a57a17dfdf871; 0xd04cd35a507b597acc2635f34d0e00d8fad6feaa5238bba409a20af51a6439e; 0x7fa6baf6553f1049b3506b643335d481969416bd96e6ef429edcb7bbc3bd532; 0x126ba0e4ac0402f6f073afbbb2036c507fbc0a7c07765a000e6306010f9a254a; 0x279f9dde1f3ca67a76605fcfa6e08fb9297ec6166957d2272f9195f967fc0272; 0x2c4cd55e57de41f6c62790918650a222627c3ee6607cc4e5ca882f7e199cbeb; 0x7d907e149b8dd9fd25859df214a161a46cd2febeaea1209f2658a83ee0cad; 0x1af3a98684f6a0b831423a90714ed76cf6f1e65bdb8847837bdd8c6d9e6ed51; 0x262178ed7821e3ac5a11c6ba02e2cca1c84118c3fd23a3daeb3568e099e41cde; 0x18ce376cd81fcafa8d0cd3b9f8d491bb84be77ce3c9311f5eafeec990c67641e; 0xefee1d46b618b035a3bfbe6a7d07ee58adff3a4a4f51ef45279a3706a41175f; 0x627846ad414f8f973b1c8fe23e1c28287326facf5d8e4079564f57fa805e14d; 0x18a8660cf8dc0b29dab206e23c9349897145905d91f5dd5bd5af458862db59f8; 0x64152cdc1703c562280ac897d87f244f1104d2902d54836229681a239093a2c; 0x1835e3b56f576e4077bab19db2681e9ce48371d613d023fc2a22f127a8cfe9a3; 0x14a10b085f8653a7844eccddb90488e2a7d4cf80b8961392594f5a7170a0ca92; 0x679c7a6a47606a4fbbdcf8a84f6755dc35210bded35de30efab0608fdb693e4; 0x2bce5eef636189ac0a9b665bbe9aed762dc31bcf78dd375174eb6ca6d8b4cbc; 0x100df1a266e4908b028db19fbfa187c30bdbff70da78377c50fb0a0f3501a9e2; 0x144130236be36b825bcafd5f18c49c85a570f0149cde227dfdf020008cf19254; 0x1c5dead7c6327e2bf2a122039c1ada3d02ed64a5f8249f55b91897fb6730fcc0; 0x3064202bf1609860f8352df058278128b3d8e31431638894e99be513c12cdefe; 0x42794d51fdd4b914b04917b7bdf9a8f695b3c9e8984facdc8197ced198966c3; 0x250aafd4bde86f05967ebc6573ae441a06c2e3a3121ec56106690cd8aa6cdc39; 0x19bd7a5b0f16b0c113fc263f1422a68c455292c458b0e8196bdd75da878b9195; 0xd7a999d6b762655ac22c9c32043a0fa25bc78f8cb0150e92b29e34c8e745c79; 0x2947940c9be29524c3e780080e57ec7de9823f34ad8965268a2f985a9d7e3be; 0x131557a2fed44af2e864112015b11e245856d84caf93f32666523aa9672b27ba; 0xe849e2a86757c7d3da87e7c6cb68c49b6520275429b3b6f090083cc332b3b9; 0x22b9df7c0d897f3f7085af16be956c8937c20544b5c37f90d93fe22487b9c2; 0x12916d9ab8f82b06ec63b8f01716727e0d186ff58e5906834c321bfd481f7f1; 0x1879a35b67e20e0b70b9c3a08d1004abcbab6e28ec6ba2d35f7ea460c51457d4; 0x19b1a3ff2d3f466235671e097bfd888b132dd8b61531dd595e925802ddba74a1; 0x286ffac2b12b8cc46747b6e239113a4334a28af5998c7247bd964000416ca2c7; 0x841c1810db59a0ab715da47aec3422b5b84e0a9426a43186d6af2abf697e16f; 0x198bfa0e271d940a32bf904da3049f07a494b4257e1d4e839bb070124615e033; 0xc133e88f35b53653a81f5bd3d0ed764837cf937afc68ea0b9e9112888fb43ba; 0x197004f4c156f6c289d49071c3e196486af18b7b841704f7ad85551e5263aa37; 0x7028cc631fa7ef392bb715c8843d68f636d9e7071598d17c2c4f6a2f2459f; 0x2d43e5766dc4284ffdcb8cfa68c1b3db46b8d50fbdfec3f0be1af97d8c6a74e1; 0x21b0b4842a69b9216f1cbfbddb0830a067b83b7ec8bb68075fd68edd5246cd7f; 0x6ad19f6ce2ddb91cf2fe6d8e251423ffa60d10a43ece489796de7db9c5a26cd; 0x2925272a78b30c9ae7865e3259984ee7edcc38862a90aa0d555b13a5336189f1; 0x1003bbeb53e03e50ccd491220bb4a09bdf7b1cc2e0c80f27137d9973e4d55fcc; 0x22fa1cc2837e644dd857fefa5575b7836401586ad39406dbb1a2cfbef9e307f5; 0xc56dbe4565154daacad1e709829d9c3f985608dd8b6778214a117f431196451; 0x8b3ab1e0a15386d4d3a39d5026dda43947e4d1d939906a55bfe3dab8def3374; 0xe862cbb1f09238dcf45d828f7e5784182185c6e76978c9522c4938975f963fd; 0x1bfb11584e4b92a4ab42aa24348abfde49bf26304cdc3d40d55ae379f22d28cd; 0x9858001a8af69f7e48f783aef3f241351d6374d03977d474e4498ae9905707; 0x686d39c57af1cdc9ce531a05d4d5c0338ad52cea11cd3d7f5ccd52f5b7f7cc1; 0x23391b8fb02d596469df0fc3e2e988e6f76db5d1f44d4629f50e92b7285ca753; 0x1e79b32cf7999e0682e1b2f87c2b1d01ab70a25bd97bf8589298f87a7b7a71a3; 0x20fa547fb603e884fbe642112d4db8aa17b99e3b41d81e97c360d1223bad092c; 0x10322b151eacc62ac72b803d7d3c55de3ac9ff9dd0b3d53f6bfb041d8b410557; 0x598f5d6495f91df95c3594f63952d9ee8b2d2e145546971c8ed2f165b958124; 0x2e9ac0d38693b245bea623ac703c751a6bab563ba9c2c972858dfb17d380570; 0xc1ab2153bbec76120a44cb01c49489f9d987061b15954d89fdbc66381d097ce; 0x23ca5a1b2483bd49962a64e6753ec65a39baa9763f502e666533b4a278a10ff8; 0x1df7893b0addd0dbd21aa56c33bd3625d1195aec24bf52427e1396916fe8898b; 0x2dc9a581ac5553e87adee159e0e400e4636c2461035771b8e4c30719fe950662; 0x1322fcd6919dd603490da162b14e51aa7be0d87c8f0000d61641c0b8e461d8a2; 0x22beb67778af78baf246aea994ca87200c46976e50bf1d046f238f77493c33; 0x22a4c93cab47b1164bffec941fe20719c2b60fb68c416806a8a549b2e2130765; 0x1a3414acf77e93c6f64735849bf33d2e1169347e13c789cb2877f425c8c8035; 0x1a5779ce0a29096fdd496b4fdb476fce3aa47f2f139656a2f13b9b15d4a9001e; 0x2b7b917c901a32ed76409083128ac6a750a7befb88748643247eaa109da22846; 0xb4ebee0843e22c2b4e73686e3e81ccb67e5867fe812325270dc738435ef6bc3; 0x2fff1cde9d9734f38727580523a0f35f6c805965c7926157e5bd2966fd2c84; 0x22923c8a7e6a4f06dd792248c5072a56ec1b4a25551671859d1ed267df5ee1fb; 0x2fd21b9e4de6e51b7d931c33300877d4a079d9fb6131e7a451a979ce4518c96a; 0x3cb5fb4463bb683ec1ebcbdc94c1130f72582e5ac7ee3b141e7bbb182c6bfb0; 0x28515c6862b25d9f2e450686a1689c523665b13becab67ca905bb83d42ecd3aa; 0x291bfffa0b72790d020afdf2a641e68ce5d496d81aef04d4e2ffe90542514b5d; 0xe79a59f0960f17a8ffaee0f89b395a9c058b4c85d2850ae8afb49975dfe6b; 0x20842f0cffabdb9d345bc55518495ca1e5eb0f00cc16532dea3c338f71fd76cb; 0x16bf665f343e1abe3a4db7469ebf61243f96dd9466c61316378ff4eaf88aa437; 0x39194e77250e6c319fa7ede0e19821448d0d434a175e37fcf39b2a0bae01c54; 0x26c081f4c1aa4c4340cc00451f421459b9b6af81896a9bf01b7198f1e0aa8900; 0x19f23268424500363151576e730d8d25eb5e42d6192e886feb62047baf017548; 0x85546b36070e5d5785ab357e88bb0cf518f6641b4fafd0478f00e954d38; 0x1dcbfa4c58c7ce008ea6a74ece7f0639f5f2dd46aa77af1af6ed42d5463364bd; 0x2363f3aba265071b1c8454a2f4a7159f6d7fd56ac340ce3eaa8a2fd662b7eeac; 0x14c36a985c9f5d0e70b4e3237e7e0f4713d33d1f5ffabf35226f7c891b4b11e6; 0x1045d702e4483de1fd96c9a46d3328b59997c5ffa57a864d0b7c9bc8fc698791; 0x99f9bbcde2948f2373bdc76fddd4db0f62f98b105ac131df836db04a1c2f3e1; 0x1ce71ffcf792bcb2a62fcea8950407629ee984217881ab4d42365556e0b265a4; 0x16bac4895649995759e848ca88d46590634c5dd4f81311488785e8459eb84e0; 0x658c710750b44dadb799aab44836219c4013af89ff4aa93c399409d9e13f5f1; 0xa788b312e075803fd9ecbbc71c2d6735628ebfc6e1ae8b1ba7f36d809c147b2; 0xd3a697b5d0d0ba5dcfd88a78fb17c52172c5b93e48477f10d9edb8cdad2aee7; 0x518ace4e795836355596bc9a1933631c5d0a6b53c1a0e50729f4df2f6d24e4; 0x1f261f61ca7747d6ea3f831cbdb80072b8888e1083f1ef0842d99cd81fa67890; 0x147e5ef7569831559ebc0c5bcf51a9540b5e70cb57ae6cb5e800bbe46bd6181c; 0x10b26745fcb3e737162fbdd0038d49542b5f0b9ba5945bef697d1bc0f388f3f4; 0x16a69bcc7b3ff389ffa71f53166094fe709bd9178ef7f1458fc252fb20d5ec51; 0xbd53c650b5b8aafd9eb35b67c5220ec7ba1baf19696392da95f0166076e6f46; 0x1fc1d20d0799f5a17971cbd02eff260e999bb70af4ded1185eb7572a41fa8bad; 0x6b5f637d1626fa9a31e92d1542aa66226645cc1595d7022c231a0efbef2f742; 0x487527ee1b0b408b5a8b43b89221315dd688306be8c9a6c5314f1dc3f181f; 0x17018ef6248be14f10a5ba550fb9855a9733a9ce164f09a96c8bfc6c79aec0cb; 0x83adb4007358918a3a1645115e1a348a52472fc0b4b05edc60ad51684040dcd; 0x385a035ba3b200fd407f988043f4daa16548c38c212f86b270c5b72b8093b20; 0x462d01c0753a7250fbcf81b22ee6956fa7a41879f104a53038a4fe24b0e9365; 0x4a6ba137fe52e0d661f90e7a49997324a831db27295029687ab12a6e1cae50; 0x1d40b075f63e07cb778649fad8bab4ba2aad8c9f968008eda971cbed617d256b; 0x118e9e5c17a07cbbc5b2e4573d1b08a4640ee32c78b21eafdc87837db8d5af]); [exact prime_13818364434197438864469338081|exact prime_1670836401704629|discriminate|vm_compute; reflexivity..].
Qed.
Lemma prime_3557 : prime 3557.
Proof. apply (prime_small 3557 59); vm_compute; reflexivity. Qed.
Lemma prime_13 : prime 13.
Proof. apply (prime_small 13 3); vm_compute; reflexivity. Qed.
Lemma prime_1263766531 : prime 1263766531.
Proof.
  apply (cert2 1263766531 2 3557 13 27330 0x16ddcc14 0x880d6c5 0x2bba0211 0x40a7c10d 0x74c7551 0x267a63c8 0x16561ad5
    [0x0; 0x0; 0x0; 0x0; 0x0; 0x0; 0x366070; 0x1; 0x3f8a45a; 0x58670d1; 0x1; 0x414d2bd1; 0x1; 0x9f0a4a; 0x6cc0250; 0x38d97777; 0x98c7c; 0x518dc44; 0x1; 0x39290c57]
    [0x6f1010a; 0x15baf020; 0x185ca7ff; 0x17ab429; 0xd747371]
    [0x6f1010a; 0x15baf020; 0x185ca7ff; 0x17ab429; 0xd747371; 0xf5bbf7; 0x680f350; 0x1f9882a; 0xd869781; 0x257f113c; 0xddde7e6; 0x249812d4; 0x2eea82d; 0xa7c0e4b; 0xe8416ac; 0x556c138; 0x2171420f; 0xd31279]
    [0xf5bbf7; 0x26b243b; 0x1426be4e; 0xf2a1f5d; 0x58df1ea; 0x1d9d923f; 0x5661d44; 0x3f2eaa7a; 0x67c056; 0x7a88b9e; 0xaf3ad8; 0x4a0f06e1; 0x39af1002; 0x35d633b3; 0x35e22b8; 0x57f946c; 0x16afbc; 0x42c2038]); [exact prime_3557|exact prime_13|discriminate|vm_compute; reflexivity..].
Qed.
Lemma prime_35385462869 : prime 35385462869.
Proof.
  apply (cert1 35385462869 2 1263766531 0x10000000 28 0x72b59059d 0xdec4ada
    [0x0; 0x0; 0x0; 0x0; 0x0; 0x0]
    [0x1f1289; 0x202f2e4d1; 0x21f5a33c4; 0xcad1359; 0x70411e481; 0x57427f257; 0xbdf97a3; 0x392dc5941; 0xffc930b; 0x2c847cd44; 0x51ed6a90d; 0xbcdbb08; 0x6624cba4; 0x4ae48cc05; 0x68d7711; 0x5c6aa577; 0x3d04508e2; 0x1f1b6cf5f; 0x198ff2f; 0x8c8e53; 0x5d1f286; 0x1170e6acb; 0xbc180b; 0x2e4443bb0; 0x7ff05336; 0x4f484eae; 0x5fdb7e14d; 0x2517707; 0x371113e1; 0x151a2d2; 0x1f173ad4a; 0x2bb75dd96; 0x19d2e61e5; 0x17a2066ca; 0x1bd40b6e5; 0x2d13bae24; 0xf4982aa8; 0x77376be20; 0x2980ba284; 0xbbea07c; 0x4122ec255; 0x7e0d303]); [exact prime_1263766531|vm_compute; reflexivity..].
Qed.
Lemma prime_2480874801745591 : prime 2480874801745591.
Proof.
  apply (cert1 2480874801745591 2 35385462869 0x46917dea2aafd 70110 0x36edde05c689 0x1b7cadfe52fd
    [0x0; 0x0; 0x0; 0x0; 0x0; 0x0; 0x1d0b9; 0xb944a456a74f; 0x26e83541e60bc; 0x0; 0x162ad2b02975c; 0x0; 0x2e547abd176cd; 0x0; 0x1ff60acc1f836; 0x5a8104bf89946; 0x0; 0x2b384fe8fc95; 0x0; 0x48d6ce727da27; 0x1; 0x6c88845cf357a; 0x1; 0x48512b70b885c]
    [0x235020c00eab2; 0x3d28805634832; 0x6a51c2eb73429; 0x2bd86f88d111; 0x3bb36e75dbdc; 0x87e53ee65a6f3; 0x8f96111d480b; 0x58ce7ff236cb0; 0x42fc06970ce30; 0x3f56670a01d5a; 0x2c2d4ec6848f; 0x12de583b6299f; 0x45bc5e776e18c; 0x6105c396055ec; 0x7b394fc31be03; 0x231af585de277; 0x19be945d9033; 0xca7d781ff187; 0x3bb4c8d0171; 0x3af9f6587722d; 0x2ab2ea2b46cc6; 0x81855c748217; 0x3edce964512d0; 0x343e36ac08218; 0x276ff9e1ac9b; 0x173c6150c4818; 0x27f86be8a34e6; 0x3fd56bd5630b9; 0xdcc3369f1df6; 0x6ffad0673e7b; 0x924126722529; 0x59735e667da5; 0x27341b28ed9f4; 0xc94c1b9ebba1; 0x69ef138a3187; 0x6f859b4ec9b95; 0x1c406358a96ce; 0x379cad4a8a97; 0x112c20d59af44; 0x2a1ca04151e9b; 0x190081724236c; 0x1e535b938faa0; 0x1226336c7e13d; 0xaf40668c67e4; 0x8fb3959ff296; 0xf9b335016398; 0x2e2c505447f; 0x1f78b72dbf86; 0x16d888488788b]); [exact prime_35385462869|vm_compute; reflexivity..].
Qed.
Lemma prime_271 : prime 271.
Proof. apply (prime_small 271 16); vm_compute; reflexivity. Qed.
Lemma prime_19 : prime 19.
Proof. apply (prime_small 19 4); vm_compute; reflexivity. Qed.
Lemma prime_1853641 : prime 1853641.
Proof.
  apply (cert2 1853641 2 271 19 360 0x13840b 0x16a3a 0x14765 0x28f73 0x20ca 0x3fa51 0x2e0b
    [0x0; 0x0; 0x0; 0x0; 0x0; 0x2; 0x1f3d7; 0x0; 0x4bfb1; 0xc732c; 0x9ee]
    [0xd7733; 0x985db; 0x13e7c3; 0x2c0d6; 0x31ea2; 0xcf8d0]
    [0xd7733; 0x985db; 0x13e7c3; 0x901d; 0xa025a; 0x5eb9d; 0x19f476; 0xb546d; 0x703de; 0xbdc1; 0x56c2; 0x704ad]
    [0x121e; 0x16d8a1; 0x319d3; 0x236b; 0xa5ea3; 0x168b6; 0x5b7a8; 0x4602; 0xc9be9; 0xa57e; 0x14cd4f; 0x15ca1]); [exact prime_271|exact prime_19|discriminate|vm_compute; reflexivity..].
Qed.
Lemma prime_13427688667394608761327070753331941386769 : prime 13427688667394608761327070753331941386769.
Proof.
  apply (cert2 13427688667394608761327070753331941386769 2 2480874801745591 1853641 2919918894070860528 0x19d34312de40e408ad66a2685372549ceb 0x208f65b73ce0476d8918a6dce19b6579ea 0xb21e4228076b8473b7c242ee3b10c70aa 0x13f129f8f8fe5ebe53850d6a900049ba87 0x107471dabaf2f9d684b52652ff805e67fe 0x23e7d7ae0d2e957eac562a27910e8f16fb 0xa212893ce497291abba249f807afd1e92
    [0x0; 0x0; 0x0; 0x0; 0x0; 0x0; 0x0; 0x0; 0x19f3363d; 0x552157384d7e00cbbce7ebc64df0fefdb; 0x4bd3fc5fad30c3df262881e446910c0dd; 0x14dad47f8c5a2030e9355126500978d721; 0x79ba599f2b9266e412b6c26704ad301ed; 0x1; 0x9a6d9137d3a4111b4d42e38f9a2d5d278; 0x260b8a08b5dc8fc8b9ea052a3f227af6f6; 0x1; 0xc114bdf751afac0df42eea9b824aeabc; 0x1; 0x2e00c1dd4e273da1efa9238be86e97809; 0x12075544210cc0c58a74d8cf82cdc1e745; 0x1; 0x5ad9aa1f8714d3c324bd771dd20919e84; 0x27c70be18d43ed233ccb2de9b072df52e; 0x9ef3d8f98288f04a368a9ff673bd967b8; 0x1617888e202e5d052f791f9b2da3c15c8e; 0x0; 0x15b7a43baa48733cc57938f670f03f6a81; 0x495c8e9a87b1d8511f1f9038678b59379; 0x1; 0x76dcb1ede6e88f09ba5605ad15f6f92ec; 0x0; 0x2350f6bbe2238b15b7ba0c26c5212; 0x35051515c1a74355815a2ec4a09a573d7; 0xede3433e35f8ec11cf9c0a40b7b0ef150; 0xfd97a25dd5b159544945ce6a99ae0ca99; 0x2daded7b46952c33e9412b050ac1cff4a; 0x0; 0x19d6c71f042c44b4bf5f1a301708248720; 0x0; 0x267ca95e9dfbf0834028e037051ba61a66; 0x0; 0xbec86ce3ff62659cd1a3ec9a98d0aa5de; 0xe355bf52e98c236812048d796fbfef54f; 0x1f1b8140333c4b0c07c7368c8f49642202; 0x25d1e55bbefb48a6bf312bdf2e2aab1e80; 0x18b0462a74878a5fc8371240e788b833f6; 0x0; 0x14b6aeeddfac92ba084d381ff55d31672; 0x1; 0x236ac7c51277be8683598aa86a8af59c86; 0x39fc5c52c4b832504e3c7a4f7a2b3ae17; 0xd4c03d055d75736b33a8df99c7f148661; 0x8303591067e85eefc2e7fec74571c31d3; 0xcb347e9f9eebf2793a5995b9c989d5527; 0xa9a0ff0440a39930dde950e4c7676; 0x0; 0x1618fd78fa9535c2a1ac18f1de5b96e05b; 0xa19aa8023ec8dde109ebb7179210d1db5; 0x0; 0xd312f26f56cf9d290baca0a3415514f0; 0x0; 0x729286a5e345d9df051b92fc693074b3c; 0x1; 0x553d3762af4ec4d58b1c3092ce203af; 0x177d72d6865e64fd22b157b3600d4b2b; 0xa1ec96defdbaaf12bc89e8a45e49c66; 0x766e48452874b91eb9cfd5101444d78d0; 0x0; 0x1186a8e6b971fab853f6cf138c6390ff7f; 0xd9be37a6ca1a2a4bc45c504c625aa91d3; 0x1; 0x11bf861a6200ce5e2774cda8ebcc741071; 0xcb65ad61647c60b4022b380fe7094de2c; 0x1; 0xa4957e440f616bc46bb9f5a70dd973ffa; 0x0; 0x1a102a758c73e05397bb7273886b6d929; 0x0; 0x3f9e9ca03afebd89c77624c8e75f5047d; 0x1; 0x2fd5a01cc50798b784c0547f27b40c45e; 0x59862262e4b69d6e4a341521c742e9e2; 0x1161e82c4d7e9236c15eeca13ff2a2782; 0x1dd2e8f9965bb95a5f4fc00f6bf1689b56]
    [0x10e6cd2398d93648221e3bc4c7b29d45cb; 0x9b6723f7200ee8ce31258c9f2277f414d; 0x6e4cb96bc5bec67cf795bedcae439993; 0xd9105753055735986c0c0cce96239650; 0x177ced935794d2e05855c78f4fae7d315; 0x3bcce8476425d1c4ac20addaad834dbb3; 0x1e320d5242372670ab305a3e9c98d4b587; 0x3f5e78708a6a4b98baba40fdca8251c; 0x6e94e62b2d5efe76c8a26a5f0ab2d6071; 0x1e7f27055aed861efd3a1211a0eec41117; 0x658f8c1f85de95b1ae92f3020c4fc2514; 0x9d3dc57069d3093a5df3b624f19f34d4; 0x7c91ba4b108de99bf5f5b11126348b8d9; 0xd65b7d4b75137d80e7735c562dd6878ef; 0xb2693b7e361ce19ab6debfe59958eac5a; 0x12cd1332fd124456fddf5a4e5dcaf73c27; 0xad13162f10e74197603621aedf6112c11; 0x21a3291005f94d1c82492f7b9b5ad46ee; 0x74440224fe3deaca58a6e05e316f5f51b; 0x182a1aa1e960b9b5d84cbf382444a0f9db; 0x507309967fddafd4f65bbf90e91098c; 0x4c4036fe31dfa2412eeb97f842d3ab324; 0x4646bea3383b8f182df6bd0ed112d6fe4; 0x84344c068c0bc3a6dd50c63e7572b89c1; 0x209fc9086ab64da0fce744f89136b79ea; 0xc66c46afd520944a2fe25d4c3b1304973; 0x76e87492276cf86a095eb84fdebc0f249; 0x17d5acd1ac0545a7cdae2509a9cc970eee]
    [0x10e6cd2398d93648221e3bc4c7b29d45cb; 0x594dd72a33de7d4e2ddb703e7a0426b6f; 0x19bb41472fb8018b16aad3df4cff0aa695; 0x192cf6d681cfd50c1cc5328e635d167a5c; 0x104cae1d2cb521b2099bbb1ac7963d54ae; 0x15119441830b222a3afd600d46b0cd00e4; 0x112c205c32a89aacc3f759be45aef07ae1; 0x10efd7932d051ffbdf4d7ed5f54ba1e379; 0x7c0aef704e05df606702c9c43eb030da1; 0x5bbefbcd418d5a3666643a6a12ddc427f; 0x116f0bc12c28cdd14c896907d390b85e13; 0x25b54ebffc8a09b20fcec82e19194976f1; 0x1509df657167fad62fdb63fff495f7afa; 0x9491623a3b25fa8f4f0110df30b4f4efb; 0x113c5b903d684c8d5426804c71109027; 0x1e3ae95fcd9e640fa7c90b5a46248076f7; 0x9e3697abd9f28573feef07ed0986308d0; 0x395756cc0e05ee6603b9c83b5e03ab4f1; 0xbeb2542129420e8ed163adcfa01c43940; 0x198a8243a55af435977a9051c10daf5d29; 0x250c3c7e5efe40edbc94d11d8cd5a2919; 0x147a1442c353285ec0d22b0b4f2c41ba8c; 0x13cfa1d626306f51e98e0c75c1855b3499; 0x58e49d34bc25227e237e81715b415674; 0x16d9f6b897e8952083791a185338f74439; 0x20c03b9493e01f5c6cf6fd71a336ef9c83; 0x1629ffb2e408feb7b500b27cf6a418894c; 0x382f07b0e133b476db100371042931121; 0xdf36bd904da2894e350fe874a5e1a7f21; 0xf216b6e1e655ccad1c977289b27bbefd5; 0x171b7ddb374e6b51c7e7803a9687db9e43; 0xb67bee38ae141d1ef578e37f2dfef8819; 0x1fdf2fed0c513076d0813bf2eed074b97a; 0x1e0eff1b732a8e9711bc259bcb7edca424; 0xe57083ed82d44010ecbb68bc6e2ec67d; 0x70ca96825caf8f5be2bc6f5c8b36be9; 0xc7fba9c8b8c6c01d2117927584f57dc3b; 0x18d5dfecebc3e0aedf95cd2ae76b9278cf; 0x2d828654a9868ee11123c9b8343e4dc2b; 0xddbeb68cc3fbe2a23adaaa747748f3379; 0x1aa2ede71f266f4cb81a7b83a1de1d9f6f; 0x4c1bb79021e2a1575af86df6f97c9f24e; 0xaa900af25b85a1627a4c45c48fc20a57b; 0xdbf5b0a5da24a8ed1b4c058327fd7b02; 0x638f7b4f4856c9944bcb9ae6f39ffe92; 0x118a6b60000731e8b17db32a67969f7729; 0x37c8451e06537c0d10cc558149ae81055; 0x1f3f1370a8fb87896c6a4d13865f573de; 0x12a11714d321cb56c8bc4431354186a191; 0xebbafea6361b751a487ea75545b3c6ec4; 0x1a0d51c6023c26c93764913d88c58ef90b; 0x698cd6589d56605db37b227d6a8fb24c; 0x2284a7d1060e447875275efbb8bf03043; 0x1068f1f452813b253396e4876ba470ee0b; 0x11689c3faa9dcf6605e72505d54706831f; 0x39c7c3242b6db587ed239e760111a1027; 0xd43b0ccfb622cde38d9d81ddefc1925; 0x19c2df02e524f0f7ff5787932a9a664ff2; 0x9670566354912d5d0ed191701ec65b9fd; 0x545165222293c4ad4cf8a64bd1f2bc87f; 0x3d9da99867455ffe64bed3a52ab079d3; 0x17556d6dca7aa2877c61c8f65c57439cc1; 0x1bea28fa1c78137c21c3541da144a62ed2; 0x1d767a3473bb8780b71ebc8540301f52a9; 0x1952ae1344eea4e2d0989917f2031c1724; 0xb19fd92ed8ffc7a58859de80aad7e4621; 0x141439aa06e09bd4854f30121bc1af46c2; 0x8235e9ad9fb21fab55f488042af3a1002; 0x26dcb97c16d208243d613d7b2a8039d2b2; 0x12af21ee0a71ba982e66bdedf17003755c; 0x2fae2b2e945988519a4d9e931b38f3cf8; 0x15f87ba533ede6be1155b826db80dd589; 0xa5e7939d2688152b5bb9b19f454894a39; 0x515ece14b45f3a4e768843e9d097d60; 0xbe1f860112fef2544f4f060289f740545; 0xeb19ac55e9f92cc83561d4cb9df55f2fe; 0x4afd30c796aa73dbb7880a595729799d8]
    [0x1addd203f5befcc7ed7a06eb53b36eb681; 0x6fbf1e779e278caf71730f58876ee821; 0x6adde6f6c99e6c1f8198c736707009204; 0x251fd177d6f6458e08b60e88c588acba; 0x188bc7ee0c830fa2500bdc736003d87658; 0x38231406bb3c93afeb6a5d81e3940edd; 0x19bff0e5c4f50328954bd602e8c73a4adf; 0x434421ff555fd998656139b03a2c5dcbe; 0x1509edca1cbd662fc543e5ba6a586be5f; 0x1f6aa2e649301af4328e38277270a97fab; 0xc47403fa454496c334f6d3a6b1f0e84db; 0x6e0b43a7cf028ad52b208f9243eaa608; 0x24eda8623ea246414f7f49fd65bf944167; 0x95f998abed7ad4a9c97fb5a99970b6e4; 0x11bbd1977a8babc2dd9d8ecfbaa2b41319; 0x1927d46a5b97d494921fb98ff50cdc998b; 0x73b48e2f9b6d00f8e63b247eeeb4dcd8e; 0x94eafc88400d496d841e0881067b48754; 0x1818c9a7c0c7c7190e95936608f7083697; 0x1a2c6305d1be8d0acbc7b4f8fbb375db10; 0x26e465085cd7450219e9890724b72e3a10; 0x1ce1c787fc1a7e18426ee6ffad046366f0; 0x1ff0ea209ae25c3fd07fe80b007eeba2b4; 0x37feb3caa7aa2b1150c956a6a8d627ef; 0xeb02846c73d372f3652cda62ab2ab09f; 0x128b47b2061c187de0c2f0a6362ab9f33b; 0x2d3225b0244255fc046f84fe7af21d42; 0xa821baf3fbe3e91479a126f2a271b81b; 0x19730b3f3f3e48e264748b64b55ec627cd; 0x18bae4ecef8331b5ee28b8d4a84b715a69; 0x11fca27897e99375ba9399f6d4c29bc5; 0xaff3eea900d4e9efcefa25c4ebb1c2b03; 0x91ee5cbd03f42e9d350250b60b9de6d93; 0x11be5101e16eb545c89c9fabfebce9aa72; 0x161d9a8cbe41960c6940d4cf586fd12d44; 0x53da6c85c42ba4c4cf50b26a029cfcbd; 0x1ed01d11e53737140b065a4f3fa8cb7ecd; 0x194ef96d8b810f17be46dd16ab8845737; 0x5224f02bea5a8028a2af10523cd9d95; 0x6d9190bf7215728284cebfde4076c5947; 0x17414ab280f5dbfafdda660cad710756; 0x15ce4f4d5962f7f998728af22dd9ab21b; 0x1437430c321a45c4d8d543ba26922513c5; 0x86976ad622c2da0cbb2769851d6b5feb0; 0x366c1ec1d45f56eecdeef94548d20f2; 0x1a7d9c99277520606981318c7ebebd298e; 0x1bc92e5ceb03ca1c93f30c409574fc313e; 0x4a143ec33c84d9b8fedab91c7479dc0cd; 0x161804f47efbe5e92a038994b022586a56; 0xe7f690c43b1f253b549a83a09acfd1cfb; 0x26475f3a8ef0d46d3c1daf93a216d4ede2; 0x13f998e9f4d0801a80ef763bc2970d251d; 0x4ba7310c626b1d5d10cca1d334d727fc; 0x3a61564d2518485d6308129ee1403a6a8; 0x10f3cce20d8aaa2f3f25f3c30745db4b02; 0x2cbdef9b4550945e2f26b7240b6d79cc9; 0x48540cc532117fc881826073b99faee47; 0x1c1c591fa2229f8305ecc37718e28de46a; 0xc350529cc848905b92e8c18456d4b183f; 0x108247547687a63cb774548aab86646d4a; 0x3a2b7fe02e200cf659e02cda95310258b; 0x170792d11d560b2e83497bd5a685c99ebc; 0x2186f29b1af4a477ddbd1c8fc276b9a8ce; 0x42d1283db04f67db15b41da5f312585f0; 0x7894d3b2f6a5dac3861c8720f4e8ce584; 0x1deeee4da367b2a59c19c891c28287bca3; 0x231d1411fc29f9eecde40831e5f40425b9; 0x1cf0309eff6135173c12c8c99a68f28992; 0x1ea0629a156acda409fd15e2f827d00a62; 0x207426d4e453245951d515312408c627de; 0xf6b511300641714450c123afd33aefdb3; 0x13a495985b1fbba050bcfffd4656af1b9e; 0x7fd52b3a22061be3a8016f9b95f107ad; 0x9f13a7b2dc4100ca1b1d3ccb16e553d1e; 0x89d4139e78953fd5692c6d4f5b4752de; 0x2745ef39319520c8cd56458dfc153f0cb5; 0x16a2d2da51debdd6d95e4d555557ee4e9d]); [exact prime_2480874801745591|exact prime_1853641|discriminate|vm_compute; reflexivity..].
Qed.
Lemma bn254_q_prime : prime 21888242871839275222246405745257275088696311157297823662689037894645226208583.
Proof.
  apply (cert1 21888242871839275222246405745257275088696311157297823662689037894645226208583 2 13427688667394608761327070753331941386769 0x2d5e256c06a868c6e4890a6dab5d8e3a2707ff7ff0369c37a2c8faca0399d771 1630082690626329392154177744477557478 0x11280702cece1e1134e5fe9ec88ce193dfcc50edfa655be2c8acda3cb27035f7 0x10159074acbc70c8e803477f05f5f765e8d140866780e84bf024d7d4354135f9
    [0x0; 0x0; 0x0; 0x0; 0x0; 0x0; 0x0; 0x0; 0x0; 0x0; 0x54a47462623a04a; 0x0; 0x2c75a6758153dc53282f0d8939f94b4a04c95dd090b4ae8b05643fc4d1d4f667; 0x0; 0x1f471fd31ce4d7f80bf16468b1766bafcc7ff5d9b92047cc5c179cbfdf7d1aaa; 0x1; 0x9e90e553fe8ca7da449b0cb6bc97aa536ae947eee9d4ea3f90d76b105f88bb2; 0x0; 0x2847ad78f9af9c9933f657e34fb36247080d72713c031aa5e785fff91218a662; 0x0; 0x42e090d289c12a36e8c10d0e7301e863e1e2857a5e72e496e0b241922b6a1; 0x4402bc92c20079869a4114a4399a5ced1ac0ce2f30c00286e4c7c5c93790cc0; 0x1b5b6fa1c87ee2a144cf473cec58c934f72bd1e0a211f6aeee8a413b7de7797; 0x14fb3a66e5f413f5da09520bd70ecbfc02a61c708ef080050af28c9a355542dd; 0x1; 0x790eca504be8e36118f3b09c772f4dd1afe4cd4826fac31e52c63f3193d1508; 0xa0d0503d2a6af2395c8e06d5e57dae0fcb5ae281ca96521042152d4645b1da; 0x0; 0x16f6dbb670707dc7b89e7922346ec720c92889086304da519e5891ea4640de6; 0x16412d6132059d4252e4496edf6cd79d6835b6013f6e9860163ce66dc15c7a3f; 0x2018b8212052108261c764be024d93fcfa911fb4a03d4eb45961a625d6179a66; 0x0; 0xc8df714d2b08fb0dfac7f121e9f795413a1bd4e426eef93f3808db56200a113; 0x1d468e6830ed33767979d65ee05c443357b0f1e0cd82487668eacbda6e8a3d85; 0x230b7316fdce5e4453ac25dbe74550d06a8b43e2c14113a5022f265a0dc5544; 0x15993a2b85307df22b9e7a5a517ec487cac6daf5c5ef71818b799d244a4010b3; 0x2b7a93af216e4ddaeae58e4a955157883fa942a7c02294147928aa106cfcc7a9; 0xfa5ea81e3a4a162b3d5b7cef1158d328dda6f8646a6bd0cc5edf313994157de; 0xb2c46a0441d9421a0cf3dff76c34dee9bd8d4fb03882cae9ec0b4c37d029085; 0x1; 0x138920d32a7108ce7c4af0f99a7314e4bbd2c37b8e9c7581f605e6a44439324c; 0x0; 0x2e4c6c6ac015180c0421f1f5c3ae349dd3d58fba20be2aa289629f182e70d3cc; 0x1; 0x14773987bc1adc482d4faf1415ebfd14b691336124101a8c8860aa62fa6ac3b6; 0x17d74ea68d232a792204434f0cdb95333c3680a8621db6c8ac44932463ce25d2; 0xba1c61373729e96fadaffce96dbc74c710a16456338db4fde1b4184845727ad; 0x35f67915151e39ca7cd3b08838693b24df5231ad5ded31415dcef79c4d3bb0; 0x0; 0x3bcc613611c7d9d60c54dce408645b5e4e4e31f1f0a28d3a6f60431ce623017; 0x154b69f861c5640e22427304343160c6c1001d48b3a6c8b3a0854fd4a81f6342; 0x0; 0x1dc008fe68f81f0795d0f2fbfbbecc0a6089fac5ec067a8c86a83b607e0bed92; 0x2ef45086604540e2846310091b939ca6a74c0774d8f26112465854846f02e2a1; 0x164cb42486ded1a27954f3eabe654b35e218d9c622839a45de3cdb068cae5; 0x2e5f63a485ddaeb64c431adfab0ff712741d6829e784648e6bddac82b374bd; 0x15cb865c660f4ed6ba890286e767b007bd09259b6deae8298030a8964ce4b57e; 0x302b6f45fc76116468b1255976fbedb0bfafc9ecb1b11ee94a295c9ab6e203; 0x1; 0x76692b081633d450eab6fbcee0400830b1c219eb06d64e336c22b85aeb19a8f; 0x16b4594d94d6dacf8be9c94a89135b60a7054fac985a634967daa0268ddf9995; 0x1; 0x4b524c409c5ab62c87f36a42465fa74c598514bb77d7620339b610c09f43521; 0x0; 0x1f75d51fb06ecbb6a4c9a2aa5b02ca99732d13152dece1f06db20478f0494d93; 0x0; 0x427798448f4f0506d61bcdeca97011e905bf6ca21c2bef63b2dd0644e39cf6d; 0x1; 0x816b3dab15aca35e8c625a224bf9d26ec11d9bf99b4c11c372258dce0e11112; 0x1; 0x9c03f16663cc0514bae2298e8bbd7f0d41733817e6fe0347df92a0774dd7e3d; 0x1; 0xa25e013035832345c413cdaf4e727260270cd39f60f7a1623bb79c17440038d; 0x1; 0xefc3213b23a3160c8fa81d2f1c2897125ee0c8d2ffd9c59d6d3ca4b8e6d808; 0x0; 0x1a4bb1bdbdb947a9d292d075eec053d28d19f7593fc4ebba8522edb784bdafe8; 0xfb0360159df976add3636e75fee0ad439cda4ef9981ed1f9a4808c55f4fae30; 0x1; 0x68912dc4b4a102d3fb499f5df1488d2fd1962e2ec702fb16cd0146ac9b788cc; 0xefdb7dab2260ff1ed4c126ad5a524c64f5546302ca966e97143c8cecb4f0b5d; 0x2af316f1b3b80f93c7d9eadb75292b7e623e610b6fa0aa616d23363d52d134b2; 0x0; 0xe175889047f06c539e075b59cb505d904a1606b609652d8480f2031233fe42e; 0x5232ca93cb5b64dcc7a08e28ce93e8afe5bb3b80ddc8672ca9305e4b840d795; 0x2c8c0108fdf6b78235929051578f9c70ff478023cf31ac891adc939e2bc71f6; 0xb3d87f491b6467c60ca0d75181b567aec5706a6ad93f7428dd097110fe449a8; 0x0; 0xae56de09203052c84ec7d799dff6881fc23e92116f98bf19612ea4dc7a85f06; 0xa7c52238e718baf391c97a9b3f067651e71f644b8a19203c9d7f875a4f6f77a; 0x2d6d93ad3ed5024b52ca68fe1a4af29f0959f41f6c05b8c126790da8b2c752c; 0x1; 0x28c1e2ad249008f5b48f98ffc172fff95acb8d0a573724cf165efc782a707f57; 0x11dd2ae92d1eec383084bb41205635f962de750e0abd52bdf3ce6f27802a0c30; 0x1; 0x22b590e45f8a612916ab64042a98d5cd7ee8033b02f5bcc3ed59cabc44e4b06d; 0x62a2f5b4901fc5cf1dc260bfe9ab509f7fb3f15994a7e5271326061a6c6b075; 0x0; 0xafcda9979f59d49cea63734d0082ad48a03820db575403280d9125d7752e02c; 0x2f3e14de42422e489757b0c479c5725d5197fd6ce3e7d2262229da8f2ad7aebf; 0x0; 0x2661b2107eac7abee81b896ef9d5d7eb7a4c4e6a5e7b96af74510cf99cb3aed; 0x1; 0x162203a0f2f4c1c03dbcda670c1a83ca2bee03c7f5fa68f58c0f25303aa5122; 0x11645afddddb731c387d0a3eaf562b24270445d24fd0c8acf3607fce241b4a9a; 0x1f46e297c98bb0895c331bc7914aee8015e10684d81d5625107042d9f48d5d1; 0x203d810144a00c9ec6a23f980d099858bea72d5a02537a1d3508beb777983333; 0x1; 0x1466a47e5799f1017fb509ef6161315a8138154c0539489dc78bb5d861bb87e1; 0x1; 0x39a27570e32d67e2fc8f0438ef63a889cd53aa57234285712610ba1a762c86f; 0x0; 0xe0a139beba4fe86cf5e00ce08d95efe23e58a84333104b62140be77dc8fde62; 0x694521fc42e98fd9bb3d6cdb82e862555e8ec8203e526a5c18ac34375ad4cc4; 0x0; 0x247305f4878ce67d828123f3e09f622ebd82bed7f4c6de60b66a1306c360de40; 0x1; 0x44c0a30aee3514ab32c670bf77111ea99c36bf8474e157cba39ea2bbd8a9031; 0x1914669a9a69c665eb195bb2fd14468e1a59e4a7bea27648c795565c6e9293; 0x1abdc83ecaba9d899d458e5618db2e584b3c12278d05ffee54d500ea700a35c7; 0x6f50483426670712da954e8eb35a06e87ab7f3819c2b9bae73d392444a2d601; 0x1; 0x1609ccf4704d435116ff5ae51b21884e0e7272526146ffde68dcfe98ccf6317e; 0x11904dd3193523b12f7bb1ea51d81eca80de6f8e577d1ded1fbbeaf878b3f439; 0x0; 0x397f2906b0cc71fc78777ec0365f99c24979ba40014420dcfc1b17d8a425ccf; 0x0; 0x124d0ea67e4353d8a240031bf480b60c8a00d466e45a40e3b6249816f31ccf8d; 0xb3fdcc09db789bf117cfdf5ded03fc6046e30d22fe71af4f6f75b0a4213a4cc; 0x2a9fa9865a44dd83f2a6a8bec4043af039042f6a74d0a81c6722afa7291daa75; 0x132829b000b4e5b8ad09b5783287ce570871151294f62821e42c2ab719cbe7a; 0x0; 0x3059bbd2ae102f5dc4fa23feb7bb84910d1ce49b4c52854de86629c0c4350d71; 0x0; 0x269c7b27984a81c99b1a5fa5f671b9de743b5e0b79bd718064b0a45350885468; 0x6a20383638401498f045f7371e991028d9d0ab9a52c055cee6957bf06f6ee7e; 0x0; 0xac890cf9dcae2a558c067a9ba2fe38a1eba8b640ebaef796e2e2682e0a6ae9; 0x851cf7e2b7cf348c0be62851f68a78804143c25e77eacce7532319c4daafe3; 0x1; 0x898ea0a5d851b8ad4ea0fb0a8449be821d0179b671110c9ead5e4f46f9448dd; 0xd4268a72f36009c7e82e4c2b75c713c4788b1f6588475ba79a7a3eada139153; 0x1; 0x2543049fb5eaeef6842150385cf6ff3bece8db1848aefe82fc54f680419812e2; 0x2d8cde6308fea3d6b7cda144a2af006332c8766f5ca74d4636451023b2bbcd8e; 0x2262b7d35593afd963e514f891d35b8812ee50dc4c3513b10681f35be3c4ce7; 0x0; 0xd99ea5e7eb4f2b42d1f32db6ffecdcd86a9802b83dcb65ce5ca97b5352a93e5; 0x0; 0x175413e4c71819f91ff0fe341236fc2149996dac1969779c73eec13508107285; 0x2e94af1078aed98329a3644df0cf9594f7382e07e5ccd2b1f04abfdca195f256; 0x0; 0x19fa64574e75778bc0753effc7253a81bc0f6178621c996f51647d58ca96f8af; 0x1; 0x121f4ff7dce6226d2342b6b51183006a5e0ee61bbcb0cef79e9bdbbf2327ad60; 0x22eae8d8b5751532462a727abf0ecd8aebe64ffec5ada696009a9cfc83ff2edd; 0x1934110ee25281cf23b35430970b62b2fdcfc1ac77ee16dc4e3f0edf0bca0aee; 0xac63726eee413b88e09efa67d5d2f0be60d4be6534d4a6e82903e1d38067d84; 0x0; 0x1e7b2da177282a4356dc9190fecfa2266c294abed1b14446e36d437349690bdc; 0x45f26becc2cc159d8bee5d39a3a022a1fc73cc9292b75872b6a2fc579de9c2; 0x38335054092552e4b757a2fd4a4754028e7af47dd2589c5d730b03ff0abad58; 0x0; 0xb6c914c08e4e5a3c75c33416fed070585ec0b9258303dfe2f7273ce4582183d; 0x52775fda29f34961441e5481533c3eb70f57eaea20031c23e296c9e9952abf; 0x1; 0x8b054e26ba1f54092c7d9275b8195ad6e0257904314ecda49789dd01c1b1c10; 0x0; 0x260bca5d6451eaaf7cf1327f9ca49ba36fff7c8426fbf21a127d97dc83941240; 0x0; 0x18ca1abc1aa4261b1135c8ba5c4dfcf87a202810f48a9b1e8e8e7979b9b26cec; 0x104a6cea84a5c6e58ac30bb412b4e6cdf398957c1bcddfbbdd8926e1b0fcfc1c; 0xd0a371477ced03613f9705b71510cb277d6cc9ff9753697e2df1b4d7cc3c53f; 0x1; 0x1b4f0a47ca8bbb845d3d6748cbf111194d7fd402fe031ea19a09258d53138867; 0x1; 0x2527a0ea2a349f7707a604ac4e3e0915ce0cd2f75eab43588f091b00b4576840]
    [0x2a885d37a49e0e6b8b4b7b6edf7e80fb58015898497c80c54a02ec2785784024; 0x234c0273af6a4a92bf026715fcc60defef64108c8af1ba14d22f3ea3aeda9c; 0xec05ab33a2550427e539aeede2faa83d77ac94e3bf94a09c6bacfcecdaa352b; 0x3954608052fb88e958d9b1b5c7cb9cc25ee8595c1ee251c22f47d3bc2a8ee27; 0x61bad75a0e8ba00d5414580c7d138e96906f32cd544ced1f5211bfb95a96dd; 0xdb186a6c5122981e66c72e1d0aeed3c6370c2b3c2ddb251028682308f4be451; 0xc60eaff8aa895ea6cc347c7785a50bbe704602bc0bc8f63d4c9187ae6588ce; 0x10808fef2a2fc36fbe22c42d071f0bf448474774aaf7612e4dd9f0bb6a50df54; 0x2be56613835dd082e23107d6ad59fb440e36802dcacaf047bf9fa5152198d6fa; 0x334a56d02aca1dc2b4f42cf6020f752993dac4b00c8dd2a0a34449783d8f3; 0x2c23db2855f84eb9f91999ffc8e4d80bc8e19f5fbcfd5be76651c57cf952ca73; 0x9e61e3be60966f73c2b1b2e685a1d588f552c2784075787b8636edce540688; 0x27c3fd4d757d7c419f3e4e9c3cb030be9a5d24353af9b21812be198d50c620e7; 0x1852c26054d7d59860fd7720a865aba8798738f8265286e88412beb7fcc06b8; 0x91e11cbf089168e346e70e347c291d501d95942e364398069eead6b008583a2; 0xd0a218ed3edd3c4cc5c4d9c4e402daf823ff473cd3f31b65f3a7b5717cf05b4; 0xd818c79b240f4fa486d3d14a11018218101c31f202d5ca95718a7ba40180c88; 0x1c80b195fbaca9eb048b5410848aaa1256846b6b5f5ea11621c6f68b9e8a85b1; 0xdcb6598c31679851c16339ee3cf06b98d6802f309ae4c1f84030062c1338dad; 0x16069b44f2b3049c28e506ef3699e7e0986633f8b40f77095d9c2cc39e138bee; 0xed14c7f6fd82a134cb90ef8f3a9cc4b1b88de62ff6c37cb5ee16a5a882c6f05; 0x7a549810a6b1e0109efe1592959f4a617011f2003da156ccf10a580a4e92dfc; 0x133b9efe10c8c5af7e97e4026373dbde56ca1dc6f360c1dd06ec93ac7c0ab42a; 0x2ab3f7ebe4a8c0025d211ee3e428efbe7ac3b82468c9b7b88b27dccefd58581e; 0x226d630ee1771e7da71d076289ce7db3e59b2b04f427489bd8a2a076e4602ba6; 0x2edb61cb1ea9bfa4219c934716e0ea4a9217c7bd03c0285430b0edd09d7a27d1; 0x14379b7566d41cfd067beb5daa8bc6e3c6d9621abb2b49c72a335b10ca4d2921; 0x4d24d9edbd511b70f1d65b8b40e5fb90d06fdd45ca18c54ebd164f23d8ddf65; 0xaeb589887c862c0651cfe8e2d6341f45e8a4da96f49eba9fbd4e5355e2e2577; 0x21c892c05106ed9e88c381b510e619c0487bc330da580fe6a36c3568bbc2a26a; 0x10b4d1557b87c2eff8da50c298bb154fa3c610bce6bf29aad18787b6dc3de99a; 0x298ae4ad1b12c34fbe73223ce138cbd0ce34478e2a48d95b8ea133d70eec0a88; 0xae4137f44a506fe167277cd3176522ad33d4847476663e3310931d8cec6093f; 0x33ffc3ff1b178fe1f44010f57cf97ff2abfbf9fa38851c2846e09d1eb6b0c00; 0x152763f0d95f3ffe57d25ea2d3a65b5df7ba3626ff0f5d0095e9c944c04282ac; 0x2e42edd5ac9de616d29e3f1d745f5cef84ede8d21161759c37a62f9591758955; 0x13dedbd2e27884271627ffc5d3bb789d195e01242bbb5e1043371f70b39fd8f0; 0xaf65e293895fa7b22abb00a6cbcd2945d1806da18409f333a2494c50f61b306; 0x21637ff8e00d295ab81be9a753b6da6180f611fa49ed6e09b4f46bbcfa4a47d1; 0xfeba74e67ac109e1ca535b2a8b6a55351b91e8337739cbff73f0e3f47a8623; 0x22145dedfdc32e31b5e97e2c40da75bcfb5875c1b7e56b22f8cbc60095b6427; 0xad13e11d564f6e842bf25efe6a6ec506548d81c60aebc9420ed8b01e5e17124; 0x2b1c324795b2ec5730341a55838bb60c05b297cf9d89ea2f8943627f8e58b854; 0xb57059f751ca53476a4229b0d472946955929c5ababb173485fafd70747d9b7; 0x237246b9b1b47ce12078a72f0af754db22b2370e80b37f4697f5fda24977b683; 0x201d4bb6232fe589617cb75f6f25827bbd4b231dfaadb9e2e23f0d0ca7a1ff6; 0xedd937ae4d5d04667fab80755d987214bb6cfaa014198ec47d58c8aa64545e9; 0x105e9437025c68ef659af22fe507f152f7d1ceba73c1fbe53f06ab7de5334662; 0x143377264f9b597d1821d62c6e33e465cb4ed5cc985f0a25e7d7f959af26a18e; 0x1962ff610b473d8df9436845ff90047c8a8fcc92cca18d7560c887b058f5f838; 0x521ae193ac470035e0960fcc337ce4341f5b1d1c764eecced29b505e07338bb; 0x1bfecd5ec509311a1c8dfa0b33e3b18bc4162f883a42b2eb87c23bc687a285f4; 0xe9f3b41685066015560452bb71290b30404921b3053d9d9a5b618016afb816b; 0x40b6251da350f0e470bcde36ea610538db0b7575546ccc2d515c5ef06ba245e; 0x1b502f3fb22a4769ceb9a076ef0ccd31cc80b86fdbf5f4e45f7b7d7bc5926934; 0x15987d07b9b7a3244211d98141bfe8ff3d4d83787fd8c2d9978d85e0c8004616; 0xa6438e113d9e49efe55ef6d1c8618155d621f21f3a016826b4736f097c22906; 0x9c3382586ea630d7fd1a629bdf46264b4819048795bb00d9a4c37c8a09eb1c8; 0x1e20bc00da01db3fc319c7749a0fb75869647a4c6f1ff51943bfe2c627b6ea9; 0x1641cf0d062b1b8794c62cf317c216f1b9463a00b5e35993dddbd73659f1fa60; 0x290f71d651a8057cd4d1343e6e219d5f65fb1300dd09cd76caac1a2aa193275e; 0x14c3e7f614aad02d00f4918103a85e5034e7a20568d985706ae39f6f5c257597; 0x2680ce66cce9935f598f34688a64b05fe971c86fc22ca149493333b36824ab6a; 0x2a263751965f2947c215167172e68b5f5df09e6ff72e7caff3f2b9fb49907d68; 0x102474744cc0529c1e42fa881b2f1cbd86c500b99f33fd4e2e7cd15efe43c712; 0xc09960e27eecdb1f24d5d69d940be449c1f4592832edb0849743af0bdf5d2bf; 0x16ed6feb3820b3e6615d7ded6ce037c1c09c8e5353628f05d2d08dcd164d34; 0x29b159d95ccee2f1c71a919167c976b7b8b6e4f32507492229db8d2fb8fc7fd0; 0x21c9ba18afe3805f3ebaaabcc4a595d782a66780db34d67a995ad1f1e066dae; 0x9a6d136c66a064046eee0669b3b389bda35008e05a5c8094cc8124165c62572; 0x1137e46a74e1399b3c6ae93738cd417a9eab5452d90e3f77870dd1e976a041fb; 0x2fab4e1386a97cd17c0d53cf19ff49bb1fb3e8de09be015001be0d80bd622345; 0x2a917d6f64f996ea463e174f9e905242627eb2cb35214a7950de35191995d332; 0xde454e28cf5143be4225eac3c7efea24681cde6abd118bc07d9fac0b79d2ebe; 0x2209c6347ce27b5531d2651da6552714cad17215f505962d34f41bed352f242a; 0x4175c602f646a10e6f7418caf65901961b1f42073ab2f8510aa7874fd3a5fed; 0x198bc7f0338469221b88bae6c58c3c64498e5f6e6096a0e7772a65e5bb4ce52d; 0x17f5523b3838328f3ccf46d21b3b6ecf284f124d0cadaade861358a0f26da81; 0x1c42ec5223996ef237846a0f2d6e50ab8e7a79569fb6d56d50ba9fa5d229fbac; 0x2b1c9fb3477d52d44c47e9f240a3fead4cb8e1a9eb4e6bb8cbbf53ca12677f; 0x2ce313e52266e69a78947336c418a3eada6e63479190b20df2d6db30316eece8; 0x12ab0f25068f4467e1914e219cb202f3a4888d0d10b63d88bd71740fbc32f8; 0x70946f62dcacad8e65f6c3483b2ff44900b5b0081c522a439b02478720f8a71; 0x561845a096a3b10a645672373bea97ddfa220178c442c9d7153a3d1a6737ded; 0x3856c743abaef88dd53b84e4354820357f382299647018fc99376868129f8a9; 0x24f110f07ef159ca2bbd921bba2b2dbacafa1a2fc114342158b270e896eef0f4; 0x9b17e8d83e64c61f743e624b2698d8f06e799d6e50c60e9ebc62c7ed0e4ba44; 0x2f8bf526a563fe704d9d995f95be7b69826981e1800242ad71359c59196b1c71; 0x5ec20968a7cf4621a14780efd36f7b44e67c2314437d04f9b95d319bada0c80; 0x179e25934269b05aeaec8cc12a4ebe4bb6efeae10340951f5a548f52a0677e6b; 0x546a06bd33e560a6a86708927056639c5388e8d006acf8f13593b83631e511c; 0x28e3e470e820bd4570fd0656d78d6662b9ce7d9cf2e07a7f63e9219b925d2b81; 0x2dd5df5d7ec2254f81a6c67f97542b922291e86b3a9b68a5360fec55cc98e29; 0x1a5acba6eb6cfc24df7c6899891be7a7095cc4759142b586d4acf0dd9eb976d; 0x1b0fca932ef2d7ef091db2f0a28da7d548944a610a47fe12fc128d4b04841431; 0xbc4aabc97c0a3f717bf50aa82557e6529bc9ae3f09bbf1c61d07d190ea1351e; 0x11a3c0ccc4b7938d640aba202f464ec936fd518f62f73d8d86192feafd544eab; 0x4cf0a46054ca2cd9793a461e67525d729a75f109d5dff6dc1c11b5ef68b5bff; 0x1514ce78894a7595c5cecfd2971b61ad60ddc0173c6d3338d8d28e47d4383eb9; 0x8171607da2376ab61f06c55eacee0b7e6e3305d2c4fd07f33d98f30168cef4d; 0x1d2575a45c36ee0c69e01dbb6cef2122401261925a608d8b39cc8e2ba283407; 0x221896c4a7a347fda83cdb6fcfdb0ff7de41e867e7742014a78914f17577675; 0x2b187fa7591568b3e89ba818b8844148a1544da1ead30e7e64ccc8c48ddcc4c; 0x20b01b33ea04f5da00a53d9e15d2b62f211ef60fec98ad2baeef645b1522a2ba; 0x8a4afe2d22f214583669d713f2e365f28e990d3286cffc491da53d567d5b12b; 0xc0d1ddb17833f59077684989f1bde90c4fb94faf6d6abb2957f8c012031a2f9; 0x18fdc1188c1e3985171fb5a54840c159d0ed5db4727506df9b6c42e42be25aae; 0xfbe2eb28912ed0f3b232428585bd79ae08548f0b1713b7829de7685fa2b613d; 0x290106302474d1a6f2e071718a87bf913bbd820d7db4ab260eccc2657d278c6a; 0x85f6bc1fe026c524f3f4cbecbeae059bada09638728379ca6854a3e78653ce1; 0x24f4a51d16d6f9587cb4aebb88b342496fa5f491cab81953412ffedd87a69fd4; 0x12e97ae159123354a55eb5d39bac69fb704d0572137aa71c483642d1d0884bd1; 0x690ec26dea410e7f5d4b8ff1e233a2a801272a085ba3034ea17e7da9ef46d8; 0x4c42f045dd729de6d6e5d3da3489d40b7043627b8895b8cbbcd17f42359c; 0x12d850577c2e45f0ff56f7a440e065e22416b0b47438f338e4507752bc5ac27a; 0xd0da3d76cf87774a15b8f4210c3d1f7e313fb9b4847ed1f79ce3f16a24da697; 0x25be8b15a9cbc5e284be65dd7839b91f876648c76f1b7f4f5ccc62331cc2d28c; 0x241c3c76118ebaed1074128e320c348b0f50ff817ef4ba366e3d4aa867853ec6; 0x2a14bc1e76bc1bba9d446be41c30e3e357e731e5d159dfe86d59e7ae1fbaae6f; 0xe6c027339255dd572743c958f5f1e333cd317397db74e3665b94dc827035a4c; 0x4dcbf5384db46759cfe361b9f279eaa22e43abe47c76c18143d8f172555d035; 0x78d83c856f4e2f208af4e9ccd417b541df40def428d7704fa896ab62f8c4a9d; 0x19cbe27a9bb53c9bdec02e3c5620403a01a065ca8294a292c4a108207d65de0d; 0xb863903fd21e643e6421d72259d4fa3857843bef62fd70bce476a55f94a0015; 0xb18f57c9cc7687bc0e9c629ea3fbee40367693d1e33c2a9d9098e8fcb25a0d2; 0x663c7d2cbf3c1f8e34ed24aac7fe65952ff990c7676a85517eb5d773f755fb3; 0x23ee97b6ad4b0b1ff162f692522ae99dda3e5777a4b2a46a0a8f641f2cbb6c08; 0x552e8281b7f4f1c92c6731bcbaadc98d206dbf53d759c8bf58e2b52493f392f; 0x3ccc7f83c59c76ecd5d63593903187a04ec799e0d0a8b95ac4fc3890dbb6af5; 0x17acfcf79042a35693fd8ec29c92f73ef19e984f61d0415705934d7fd8a53771; 0x177b3a436dd002d0397bfbb722dcf1bd93bd2f966a2f770935cabf3902cb5cb1; 0x1e30d6b282234db4214f5d882bac2053997c43b8203d663d6d6bfdc57ca81ce3; 0xca8a54fc6b3dc3af1c16c243817edb9951ee427e9bcaa2271c6fd23d03b41be; 0x7a358cce780f805256870dd3b673f9d90e92e2a95a41ad841e666b9cc7e2100; 0x26aa941956a1022c123b9cc63e5fc559b722edb7e13646785c6aca5088557baf; 0x5c9bc4f768f693ce00d0bd6a15addb932e708071c7349ad888d8a699f3578a8; 0x2fe9acd35a78fdd99d04011dd53164d5aa212fa7dda59a915c29a6f79083afbc; 0x185d475ed62d4c662296619b0673553e67c973fc01d84ac129a93456c2fc5d4; 0xb094241fafeba6df0462170c609d63efd20a159a7e6a6af2f6b7973a3ca267; 0xfb3dbc5fd934b12a4d185562ed2b2e95ee4aa5768d0aebbb720b4013f956e74; 0x1d638b2b5c1f92c739463e81558cd1f2f224aad6c04c749b7385178131599df4; 0x11b5b393f930a48b2fc82d4759ca58bb23341c681b6d86ab842449ae1c7f7367; 0x13586f36ac995629e6a0f50a2d192239135530804cac2ae604ad38b63a4f; 0x25bb5c94a78c367e0685dd9624fdd9df9c4635eff81fdecd8783566a9e4e54e; 0x5f2b693204c16ebfe55c346ba3e14d2423361aa7b1cf71da1d1e4deec85cc4; 0x1558ecbfe7197ddfbd611bd36222c2f5590b7aa11f9971e6463604cf0a84d83c; 0x9112ee3eb5499d71a66cb02f2f3f193a8bcf0f384c435427cc4258e81b0b918; 0x12e1f1971c7f68163ef6eec9327517c703c38af2183410e3c187a1f1586169c4; 0x1eb32cd16dddde6c342c924b8d03e65f2c1fde9abff5cc5759c2fd2cac3635ef; 0x3b9cdb24fef202f4260d2f7db23cd4cc8a9b0030c8004af7399a1cb7877e3e5; 0x34c73fd70aa7d044d6470a0e5e221fd4f8c5bce9f389bbc149e1d6adf491e9; 0x1506ed208417617a6c5eca68b8e351b6eabdf45efe31bba4c054168b62e397cc; 0x69f065c4d5038386af4fbe797ed8c5cf0026951a8dbef2ddaff267779b09ee7; 0x2c74825aeb70bec99cff0e81c44b823610c4570f5f5b1891d12e086178d7f5b7; 0x13055bf095a551d3c41a4d8f4b9dd9142b08aa42805631d34ddf563c6207f8a9; 0x28e6a130b20f01f0d927a690c497b70250471984c618138d3dcd8df1b3ad934e; 0x132bb66ecaaddfd3b7e75e9f23cfcf4bcdc843b6db6a2745d96d7fa0537e40b3; 0x2a49152e3c5f3c9a0b07794cbe30334030d9d4764dac628cffe3ba26cd5a8eff; 0x1e1e69ed6e3fab96530a3bb8c1c917b7015362e9364f6ca865bcf0bd1c45d6; 0x27a6d9ed646072424bda679e244519c6dfc3e6b1009a0030c1511fb36b4b7786; 0x21be5d1a0722297441d7d67f1b61a82f65f864ae38177d3d6858eeb0402604fe; 0x78dbe8311702ffdf509d29cfd6ecc1ce8700821920ad896598e129ac048b4db; 0x21110a4e2ea058e6b9b63e7b96f81ba2c657d22809de3a5b3c3155d27d339bad; 0x1abafb43eda3507603c0ef523e2fe2854c09e858aa7d45985ea8259c02b6c20; 0x13d2f0b1f5b00820d3f81ebe06c39e5c96a710d8eb28575481cb3e41ee664b16; 0xf89dc2536f8803798009bbd1587bfa7721dc4ea74e7bed59ab8a6d1abeebdf1; 0x15c493e8918d315938f23e9b0bdb7965295c10839842b134a74c98f63b60f280; 0xc7635bd943374428306e3d04ddc91f2e81b462b9982ecb3c5526e19a06b352; 0x204d4c98c06650df34755e00eabaf6e7d29ba5e31e5b8148939e812d603ef1; 0x1e192fe96346fe5a597c86432882946bb6ba6046a9cd19d36a11753a77319f66; 0xed88f59ae36ca439b1de17469b44d8a66a406e2ad1ee47cbf44100e3bc06db; 0x58715eceb3103e86a91669d2ac1bf3e67c16279f51bf1cfd52f7a3084f695d; 0xbbac0035885cb56ee2766012e425eff7ca12ed9fd2b61d028c87a6be1f7538; 0x65b8049d1273049e373299520559f37ae4b8e552023c0e0171665dfaf67035; 0x1b642cf5b8a395e90c1b3d169e5a2fd2202d5cd9d9e26103f78c0888982e0133; 0x18becb019f0716b9103a6996102c4b0c1178cd04eafd2bd8f6261c3dc7c0b02; 0x21f7b4477e34e6c8a73c6f915c4fd048026d08e74b26eaf1d85698806bc3dc3d; 0x2577d5d7bdd261c30301ec2091a130f8d4b0a1b609c142a3607b0c09a0617d4e; 0xc7e9f029819a392f050163b8ecc610d646d042c8e1db5f5b7c079633a2604b4; 0x195c7c3312510016f4179fc1f5bba487c13aa214082f674ecf7295dd9ecb5ac7; 0xa198efb211892abe78ffc6eef37e6ddde4c78db411846e7dd376184be90790d; 0x25ee60ff0fed414b3ba3b77e77358ab6b6e7338ccf64acaa36560cfe297102ff; 0x2363a30d1deeb6564fcf242b70f0d60bf5cf7d24d1b473bfe9b09e314cef840e; 0x1a460a0add6580f348e895d6c62b4b46206eb12b4f0620a4096bd357bf88b8e1; 0x161cc93961ce2bfd139d36d6f2128137fbfefd93d0c9a4d83d2ecd23254596a0; 0x103ced9a19727e6ba7b49a4b5192f902e4d96de6915185cf289dc8d0c1e8982; 0xc1cdc0121baaaa43031c42eaee1d890566fe933d7321c7fef84c55c972c9233; 0x1a14e1e5637d07ae415d0b4339a8afed578d4f45b5453720b05d41252f6b323c; 0x82bff0876b601ab4266a26111c7bea88205bd1700ba1a28e367d9dfb58e7b3e; 0x14364bb140589f85da5e00e99722005ff53c04def9ed4cb05f03b86b37e9555; 0x11a20baad9013fbeb38abd1099bb8ca4c8cbcf21416773da2784be8a6637035e; 0x2cdbb9945598b495d87d336429067b17f47f6fa69ecdcae6e5c81d8498e81b4; 0x2da1e65673dfed409cdf5dec115073cbcceacecb3a9d7e2faea7e6df566ddac7; 0x93134266b0055f362151c128ffb81843004b27edbe509d7a300dd766213c21d; 0x1c92555971cc1339dff6447a08a5d710c93096bb1ac24fa4869562464ad839c; 0x112bf972e26355f63e7e84d9ba59dd8b50d752265783a28aa956b1f44a94fe50; 0x80cb05a6668c89531598d64ec71f4864361b0fba80814479c5a983824a8438b; 0x9009e6b7822e71341e8f541fba9062b6742fc34d5ab545a625693ed99c4f115; 0x163575273bc28745b98a3c8da54de15bf2204eee0c316f19eac57f5c5a520ab4]); [exact prime_13427688667394608761327070753331941386769|vm_compute; reflexivity..].
Qed.
