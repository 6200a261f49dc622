(** Certificates for the minimal polynomial of the generator: each basis vector as a combination of
    the successive states of the generator started in (1,0,0,0). *)
From Coq Require Import List NArith.
Import ListNotations.
Open Scope N_scope.

Definition char_poly : N := 0x10003c03c3f3ecb1904b4edcf26259f850280002bcefd1a5e9d116f2bb0f0f001.
Definition krylov_coeffs : list N := [
  0x1;
  0xf2c9adf7af0df9f465ab73f77cd3a2ef3c25140c5c9c3038e1dedd95ca1747bb;
  0xb460444ac625d79b203cd6b025af2f4ac2a3bb3949b9b88bb714d51dc513ff9;
  0x3551458e3890805b945c1b47157b3a5e69b3afa458ab4f609978da00617ff5df;
  0xdf47767c553f3001a1d225b497038b0a8296cd3a1e5e73c9d37648a6a077762c;
  0x919955f819cf734aae74a0c3528773bf594698cbe24c201bf75bb029e5370af6;
  0x4f360160b8ba7f5839a35309544b938097aa4026f3c3246637d527114e9e5c03;
  0x878e684570dd1a2fb420385235f699a998ad6fbb19907ff9f2e21b93d5c0bb00;
  0x877ae21c02c2f0d8f023f169078d5ba155bf47e5d123c6966f8bfa66bbe07f2;
  0x8443be2e129ae113b575190e092eda0c4bb3d7964eac24622d80c1e9a8aa51f3;
  0xac86331b906f1879278675f2f91c33f2d73e6d9fcc56dc6d5524f5ae275f3594;
  0x8c7bd673189f29a00644c1bc411593687c063b2b45b0e0377787b22ce9a70db6;
  0x8b48e6dc3ee323f718ef9aeba1ebda63ee156c10a348d0b758e9ccb2c611da0f;
  0x3c0983725f6e0a82965f304d65de789c2c8f887cb776dbdb9298aadf12472bf2;
  0xce2bb4c57d9bd28a735e07cef04e43c8fa63333b1f5e002019a9a8e232b213e;
  0x48f60e0a500cd7ea18f2b39ee60290def1e935bdc1e2ffeb161296e849eab201;
  0x9214069e88fd4d32d92800681171d7541cda6a0b12e646193d5c2497d0a5f6af;
  0xf765117ab7bdca5917e70b6aebd99d35693efad2fb24dec4f9ef5c4b4297aafc;
  0xec48e053e19f460ef691f5491ccc7ca8d85501b197b93a9ad5ffa09be83e4edb;
  0x81478d3e7da97a2d9c785136f3f04442aef9a71b507f20b6e47cca56aa7a9e45;
  0x96d538ee43b0728a2a28e01c5b87169df7aebae792938ce632a5976409e10449;
  0x52e56790d730b665e764f0de28c69d6382056c0236744ff6502769bd863b017;
  0x59775805a2f1a9e797c407f95007f2e605a4f1a6154310e9218c028ab2d984;
  0x55759818f8a22dc5c56d946938bbef5c0ce147d9cb4de6d20c06b110e316b421;
  0xb7e0cf5459a9150148908641c2e7c7d9f537dc2a55eb94c88e9c9f82d5c01a0b;
  0x3a74ea63bdaf892e80beaa8c5383564fa427c620cf849a7398b05dc2f0cc9f5a;
  0x1f7e55eca1bd520677be006d8e34b9665fb54310b7773899b6e4e17452361fb6;
  0xe23a606b789ae0b17e3198ec56ed9af4f993df6acf0de2a732c2827db3c507b6;
  0xfac451a8560880a12c127103ebaee67070e91848508324138cf300c012cbfd02;
  0x845ed8a3a86fa7347123109ca8d5472bc280f77498b87365a1a9c29fa49d9243;
  0xde2e2570cac9424f5150daa66b71f2e901b7dd57563489b91f583c2ca02be3d3;
  0xe95777bc2e70a59eb57fbbfd9f6292bbd2792aa0670378e213dedbbd61139002;
  0x5691044a4901cbd416aa594bfce5e38517602b0c5be0e539ed60f057a9c9bdf6;
  0x1f62a7cd1b67f0a4cb1051648c6d9b00c94489d5c39ccfd026a76adba409a306;
  0x5bf0110a1b2e33841ac5015891119a4b65fb0b5dc079a7740f6392847d2ce324;
  0xa9cefbb2398fde751a075e9c8d033999d6ab7cb1cf3dbf4733eaf5f8a952c432;
  0x8197a7371801283f05095cfacbdbec99116e83b0893f4bb9c585577028ee41a9;
  0xc3cfb69a0840156fc1ad4d65fb58a271fe2d5f79346d7c065a6b9b9c74f00926;
  0x442fa7f8fec3fde23f315234282ac158ae5cd073d8054526ee6c5139d5e7ff7d;
  0xc5ccfa104c4ea917c8c3bc7bdde4f53bd803da661447c47bef897c5fca45ede6;
  0x3541748facd1b46868bed551f2ab30fdeeecf5b3515237de78b96d75f6344bde;
  0xd90a7d792d282235eff7a1722f49a007ed616b462ebb003479403bb048fd8d83;
  0x934c81c6d9b632a9f3dd52ad03800717900ca6c845043fbcec1de38eb7216bb6;
  0x1ffb87dd592a5db160f711ad7a70cbeb3191b42b49c4613eb55dad8aaa6c7531;
  0xdf151fadca38f28b46d1e95bbd70287e44b7c6dd26a4d1c230ad372015834ff9;
  0x784d601d889e9508ab04072506a8b174f5278c34e9430c94aa7b06e0af15bc30;
  0xece66530c6962977860b3d87e954b8dcf4a98d21e525e3dc53b9f0dbcbb0f508;
  0x110d6660856a26f51ab823bd6fd53955fd362620f6c3b74d20c0f82e2faf52c9;
  0x13731e8f7e052045c917769561b48b6cc92c593c3dcbf9d93d90bd5c686b1033;
  0xe13618d737a989ea1ee7a32ea1e8b4d21ce38f67eeecc1f8a114a8ea5551277f;
  0xe3b5d2841d30ddf22e6c3ccdce4b63452df24aac7dc3004ef9e7424484c45807;
  0xb84cb22cfc89e93a2ee3286f22eba23fd993cfb863226cf8ce5a2745bb4be98b;
  0xdd1605839d4476f956b883a3c7ff63a33cf08321c5410af1b4fc494cc05e5350;
  0xc1a8e347ef8a8d9eb3a06220e9608f49990082b39b08383d853d019d7000d8d4;
  0xcbd1a53b7d01d3f3d5e6b80f7790c995e0bb7574018ea3980727bfa7a6933345;
  0x2e430dcc18c87e7b62625db74347e6bda17fd27d64485c93bb902e31f17dfba3;
  0xd356e8ce367ae60a4e10de3b84f7807cb82d58f851fe8a173edb643cfbf8051d;
  0x1318159d212269000ab2524aa69d2134db16949c8b524d144e31b504ac97fe56;
  0x4eac4963c14804e3302b6779d28ac9ecba2d02f1997e144a3be429067fad8bb7;
  0x26fea1baeb2a4023493f5e18c459a0f35cb2afa2760388d7bd7bca9144bf07f5;
  0xd20eda578f7681dc663b60417732c050cc72a09bfd7b2b94c974f582f5d45807;
  0xe9286a960c0eb016907539bbe66597ec7ae8656f4bea496075dac159d9a2818d;
  0x884c7d752f75136f2b49a9de29a5c44ef244495bffad8a8584b97f12063c4901;
  0xb2dea88091ac86cdf10ab9187ad2975c5734fdd4d83f34abef97db4e9a9ccb91;
  0x8001e01e1f9f658c825a76e79312cfc281400015e77e8d2f4e88b795d8787802;
  0x1cf5ad36a93ca1877f6dc53df2f9c4ee6598a220bef5ef1c60cb0d5f19ada4aa;
  0x932eeab5116af1c33f5c0a84168a53518f016aab040477fa65d28b9e8ef2980e;
  0xf00bc9c572f6251660cc4dca3359265166fe888f7a7db45e30c56e952a386951;
  0xd12e97fabfdf331a97f9b47c43a34c1546e6fcc2fd6ec429d246da35a025a74f;
  0x6bfdc130004794290f67fc282a68c1241cae7dd9fb434a64880bd76c88056096;
  0x39f6e26f32b6a490edcd797191a02103e5c1a04b791957d03ac86a3fe20bee07;
  0x4cd8249466ea7251b6e481425733e002ff8c68807115da5181a455c5f191db81;
  0x14d48b53604e499dd98561a668cdc1a9201a12c394ad66e67e8d209fe2a30c1d;
  0xcaa483690cd91c3b36be25b3a3fd8959317e44d9938dcd849e583b99ed89031e;
  0xf4cbf86d7d777d7d87b3cd3a893e199c763eddbb07bccb29dcafea0ede101e3;
  0x5ec987e3824f0c890b1f0e69848470e1c48f6be8e744aa2bc9ddd264176d6db6;
  0xd3379ef4421678803b46638a261509b1a8e06e173eb65e44ce3ea78287a3d118;
  0x6617c75d916b10446791f8bc7953cd764f58d4c73556da5aec7d00d1adadc21d;
  0x1fb42b3e845fa4c51df130c7a98bba67589f7ffebb11300503f8785b57c3d2e3;
  0x3596fb0f9780a1adbfc648152c16a6101a66f1b0844a0d0ce9a4d1316f584502;
  0xed202e5075259269582a9bcc9f6c1545b419e12d853c384f378f83da21919e08;
  0x957b6a740b9bba87a0897eaf847a6b75646288e74526c8b51238799894947087;
  0x2eb790ac1350818f10858b1e02c997425f408385cd2d7f09129949c44ceb32da;
  0xc22efcc1e527e7d8702211de2b2ffae3894f9d8521424647695e29386940fba9;
  0xe6c2cd89861972c4c7ab2b1e2ffaf632974a2882c5ed48ceaf803dc47fba02b7;
  0x88ca67d083c0f6f3118dcf7aa74c2885ed1086f5b003a6ae360d61ef848ec025;
  0x9e551c09949b873ce46a0c0e080c1cbf099b9b9f2027a9a6d3de04503cdfca;
  0x501c23928a28e5ea3794017e38e6d49ef22c4a9443b3e250868d3c6fde4a52;
  0xb433d920bf270e17b387d48bd18b3c189334567fa8a1748489eea87aa9e8b112;
  0x69d3a1f6a588d6ca4122005e8ec707b89a5c6f51f8cb79defd38956499ff7119;
  0x3143812f13a40d0fd4a300eddb732e7f90b027a93555ed7fb6bbb2528d7730b7;
  0xb56a30df72467a2347cf1061a08867168d6e514b37602e4361f52aee0e987cb6;
  0x88e94bb8b82b8a0bca99374904af205ddb26bc9f47bac070428eeecb9c02f484;
  0xca90fd34a44933675c39325fb0f77d85e781956d54af4808401ebccef3fd65a6;
  0x5349787bd0578b2c8ce74337566c4ce10074543b2ef0c0df6285bef178cabe4e;
  0xa606949a74e7d2eb34f447cad751f3af4f4ec03b337a57ebb343b58fc25e1804;
  0x866a8ab1b683724226019e3207b936c8a570439e9a31b8ef2c7198848777a517;
  0x31741c7cbb7c191bf3a88a7b5eedfb81f62b574166f7f8485e1d60da9a17978f;
  0x9a182a913bcb7eca38e8821d6aabf9b3790b931560cf9d521976ec4ac4cfb7da;
  0x7794a8150e698c9bdb9ffb87aa2707a44834710b718bb736331fe26b6fc1a7c;
  0xc3e6bdd79ca36af40e788ca0476d7f3929aa46877f62a5deba51dde62d232b87;
  0xe67b76452b9eeb716738d1b62d388a5e01cc11653c115c5104f395dd6368e6de;
  0x2a497c139d7960b9e3a07b95d7522ddf8ad7c8cbbb76a5f1e5663d7a99447944;
  0xe97c49148184cdbd71524b05731e0f6f5e8659d4ec517094b5c729bbc159dd3e;
  0x702253588fcbb2e4e522c00b1c03f9852aaf91bf0a0d7453cd2e6c511772b253;
  0x5e93e46cec65fbe4aefa0975fc00c04bafb2631163a817031db9b206dd0d55c6;
  0x6f3c8352e089b71e1ae0e1c3a0e59221ea9f1edf66777af9332459f1852292b6;
  0xb00b2c4a015ef036f3cfdd6bdacb3de17aabb256d0147fcd7e9d3a45d996a8fa;
  0x51a290af51cc32c6a825bd32116f148428f46eeaf7985c14aa952d6e494fb00f;
  0xccbc7035d5726095038a0dd88e053a5390dcde73a6279f6301cb8eb109a1a678;
  0xafbc38c5d1598d4dcba708030026b2529187dcf8f6242c0813be76f1c2496095;
  0xaa9d9fef57fe3b1c3a762043fb5221c385b75f44719838139f693bde90f174f6;
  0xaf5e52475c97b525f4ff2087e0a19cad778e9ef3820c8271ab6193833c9bd07f;
  0x32f51de7d42679b4b4520ce2a612638ab476d942032c747cc13add1fe8825540;
  0x36b36c6814587b88cd00fcd5ce84276f4eddb030ece417cb5ca4fd152362140c;
  0xacbd1d6da7f6887ccc595fc16195c527dc2e7892de5678fc28008597c3baafd2;
  0xd4a4c9facb141d970299ab594a24e912e51947f8a6df8ac52e97d91450637f09;
  0xe386771017ee96eb3a24189e8054c6b2fc0144153569763b55f5ecdfe8f12dc3;
  0x7249b8c96422e08bc7d0b731e1dea7a6b2eb506c2a59818dde457822f6e77729;
  0xcba67d60226ba647f7afe352b43ef1e713004dd19dca1a41e460fceec23d7297;
  0x4f0485d9576911843dc748427ea39080af8c1db2a281c6543142a2d9e28480b5;
  0x2fbc21f4d2d5e680103d8db01e74d2f3dba66377530dbca2bb7bb08b0f640387;
  0x3a0f56687dab6e3b7a190ba8df4238eda80c848e193daf9e24b2f11a18f5aab5;
  0xde83f3b6bc5ec5dbb4bb65da798d5e5d967c0880307858ebeac2c7fff359f410;
  0x4d18f9a6f9f7edc37985eb8ae0cbb0ce7d1c11442dc8559225ca497af9ca140c;
  0x26c6c0453ebb96b3ee3e74828aceb4694b64f8571ba2210102c13aa1371ccbdd;
  0xd4bce472e9f101fc45d91c7bf2ae3afd1e6ab624290e473818b7991367ee3e83;
  0xbcd025634b2ee0689c7eb5947dfb35510633857df5e26473fb7d838410ff7aeb;
  0x8001e01e1f9f658c825a76e79312cfc281400015e77e8d2f4e88b795d8787801;
  0xbac9b1267146082d524bceb51a8bc5a23779e1f95aca50bdfb904caf7649c66;
  0x8ee4e678e5cc1649e9585d391065444c7b7f267fb9a8db63a8415c6cea01d805;
  0xaff807573b47a5fadc2860030cd468b3dc2a7863938065ff9b4c009589b87730;
  0xb0e4cd427fa0a801713b376edc824e8fc3ddaba711714a2d3acd6cf5f04ccd3a;
  0xd955ff041528caeff94ef0a2fbc4ca60f5e5d4ae136a30160cf6683d17ac8f8d;
  0xe8ace1cefb782578a7288c6a6d7c95825d3f60206d5c3b7a62b7030c31a90a02;
  0xc4495c67c8b397386e30247b2f0dd57d54fbd866955840050b93165a3f20e680;
  0xc4c7931203a388b4883209dd844bf671ff60e41739b225dd584e0755e61040b;
  0x466381270448f416ed95e36e9eab78c8ef2a3c488e84bb7c75c81688a487010a;
  0xfac52a9658589445b4454f0b85922a0bbca15b502a7db25bffb68f7934f0af5e;
  0xca463d4a94d0bd700566a162619f5adc420526bee768902ccc446b3a9d748b6d;
  0x4eed75ac3e0dd78016c22179e20cf890985fda0d159235c3ba159d7e7d614f08;
  0x220d42cb70d90fc3dd70a86bd73144d23ac84c42eccdb6365bd4ffb09b64be0b;
  0xa93e6ea7c3563bcf4af104298869622c8752aaa690f10030157d7c932beb1a1;
  0xec8ce9116795d99396d19cb606111773085daf76c66d0d31d3936a09b5679301;
  0x5b1fe5cfd31c8e2737e676bb8adbf33c93f75f1b7cebe83aed7a8149e08f75f8;
  0x8cd799c7ec632f759c148edf9e3553afdda187bb86b6b1a68518f26ee3dc7f82;
  0x1a6d70640ecf80850f83790a01b88d3e353f817cbb1b2af8f188c743c45911b6;
  0x41e5abbf5ce2a2b7d01e0f4a191aa9a178c574831f3e3dc2d8ca18e8273fa967;
  0x5dbe44877df72e43bd66e6f5e55652118d39e781bca4c7ba657feb43d569fe6d;
  0x87b89d5b9455eb59f3171e6c80d892ffa5707db5d5aa6baf990bfa43ec2a101c;
  0x75ccf40773897d145c260405f8040b95077689751fe2989db14a03cfebb546;
  0xffceb40a9b6c5eaba58128ba37f4d7308bd1e420c9959894448d5e0d4ae59631;
  0x6c1148e06ae2fa0d6e82b386b086ebf78eec322a9860d383875a67d667586f0e;
  0x274e9f5263784db9c0e1ffca7a42fd6876342530a846d74a54e8732388aad0f7;
  0x10c17f1af163fb054c61005b492ee5d5706fe298eccca4d56d9691ce7b2d106d;
  0x9327505ec4d790e9c129549a7d9b578e855a30dfa88b13f4aba3c3436a27846d;
  0x87a6797c7d0cc0f1ba1b49821e799548489d946c78c2b61a4a8a80a01bae0383;
  0x467054ec63c71122cbe8ee356fad2b7ca2808cdb339ac7f83ff59445aeab2362;
  0x3138d7d6b03286e47ba2c112cddbc45f002c33e91a50404ade7c95af28466a3a;
  0x9dfccc623948f751efc0660350d3dbe63b45bff05482c4931a31b663d19a5803;
  0x7dd9866f6d812e3e1dff75ee029712479cd03e8a761097a51bd0887c7d2d630d;
  0x10d3f42b96d408f6ae9879d6ca5b5680ade6cd3f2252a83835f4dfb6760d7285;
  0x7608198f16b92a4617a781f4d999576ed7068ef3204574ce08d25bc643ba92b6;
  0xfd29866b2548314f9704f1d2cb82a5553dfec2e928a360e4aa1f8f04fdfba62b;
  0x415d94b28b9ed9ac05d784603d24d5171899c27d2ade634a69cf4b5de4e1197d;
  0xa2286dd70c601fd8217bebd706f4f349013bf0c5ae5bc205775e56524e880db5;
  0xe639941a9e3d669fa2f38dc9af2d6e367832b85fd3796a9ad7d2ce30e76c78c3;
  0xa72a87186a69fd9c2ca2624633168fa6340237551e642646184dc2702f671b15;
  0x2fe1cec87ab96e5c5ce1bff90bfea883199a8f6af9fb2c3144e5dbcf0d2e6e31;
  0x358ea3dba42356a39a56072cabffbfc69a91def0de980d010b6891fdb4fb3342;
  0xdaeac125b56d2bfd0a33fbfb8240049c580af5ac678620629a131249ecb1de6d;
  0x9007a42dea2016e552d6ef9c545a61dc28196e2b0a58dc8ea17bccda272237a9;
  0x309e706530bbee4267e36b11f0daf383e7ac25a65288340c66731b25c73a9005;
  0x446bd0134cd1df8cfe8604b785fce9ce8fb44a2e9de28adeff468590f89f6228;
  0x9a9557a8a5dd3dcc450ea3441dfee4b28efd4bb117b712327a6508b62e688f8c;
  0x998a354ed840500315be44844b2d6a3d82ed35256adce1c4fe2833ace00083ad;
  0x9acb71d6de98d5ebafc6bb38427c01182cfa75b7c450881aedd054678426e02a;
  0x11acf4a2b3e2289393ce045e620e217993d248c1fee42c2bbf164b0aa781ccc0;
  0x126edbd80c37d687bb00544cba7c1d253a4b6fefa45c0d46cb9c54f31ede0c04;
  0x646b0b249d52782bbbc8cabf208cbce2b41a2871b5cdd7abe7ff8372be96654e;
  0xb39d074253e64d85fde4c2722400d272a288c2b127e18f896e826deaa0717af8;
  0xa17c92e4184fcb51ea7053309dd0c8ed5580c3ea568c242347a38153c800b4be;
  0x2e3897b8dc1e5f86bd4f92ef5f4a629d91a6cfdbe6377f7b4a3cd7e1ada2d2e7;
  0xb9636b340b3324ca5109058b71f6da21f0803b563112fff528d08ebcd1bb7e72;
  0x3afc7cb732d8f083eb42c7c1d59e8f80657bf4919e7f4233ef3e61b75e7c7f93;
  0x1a941f53b1b35d800feb7b6ff5d3b1aeb69dded2cefb6b9e69296f86fadc017d;
  0xe9fb8dcc3e73631e2a64a222a8dd62d8667b839cb2bf9340689e8a109803366c;
  0xb5801179812005be6ffa87f33567bf4873abf866aa7cc1932d4e984c3e98fc0f;
  0x3b0857625752a4bed77ca6865fb96fba2b0bf0c3e4b83371e34638d657460c04;
  0x1dbdbfc315968d915a15d381864593d8c6dc57cd0961e0ff01bf1660ed0bb94b;
  0x4c6ba3d1a750ff543cb70bd6ae65e9ab0a266de3e705c2e8086d770edd5a1581;
  0x6bb01cdec6e5a0278bd59373d4a91330fdee832b535e23d156d4817c0faad659;
  0x866adcf2e66140f00d7d0afb958101f42f30c3c2d79a936bab40956845aa7bc2;
  0x1fb9c39ffac53106471a9b260b5960064dcb338ebc028dee286ae8517757fe24;
  0x7a4aaa2e2831bdf5caa77e848250e1eb75a365aaeee7dfc975d675b0026c78ba;
  0xa6d10f647576a0bc8e191855d85e9c71131d3f0819110dac1a182c7e5590a2cf;
  0x7a6472b435853ab7a7d49793b10c6ca2b66dbc6c8e721ec5b968fd9b5e5a04e6;
  0x5e39c7d203dd9a8302fa113e3da0a3b3d87af871bc6d1e1a82d699db2bf20a7e;
  0x5aeac95de65bd98d49eb5194428a5a1a52c9827ea15f307205eaf026b67cd21c;
  0xdcbd72b07f7153f3588deec7b7fbaa3ac67c45c0e2d1d397cc53fb59e28d79c6;
  0xd198153e1d54b8fd5372e90618a5fc98b0d093a0ad8be306bbf8941d7a7e268;
  0x27979d4eed9b0a28898bc1a04586f0dd90b697eccb53f4032937d927fea372a7;
  0x4179486ade570448d4d208f74217ba92667f0359bc03a31186fe60512e024324;
  0xb27f98b262718f39d1c75b7bdae84df783c6143f4ff9291c46fecc93c974a2ac;
  0x99947bf852fecc514311255582c918d72dd01f713820129ab6db3e611327a825;
  0xcd81af061e58be98ebd2128cb005062069a2a745c5ab1a7dbbf57dfb37206e0e;
  0x5e905890dad40d0f64e99ba5d5278aa7e9721ff9ccd8ca4e0f1c9f4714ef1793;
  0x91b0a5a1f51f03e8ec80a00f2844b3f9587d96381a19cd775e164a023e1aae05;
  0x13d823739b423aaa21299c2626e57b65b9a6773131f5fd5bf83a9a79d227904e;
  0x64c333979a95976bf94477e5b9993aba3c908bf890e99ba7d1c5df22277b799f;
  0xc7797bd197c3bc63d11f409ff57ec18b6f5fa3265894fdd080529d31cc1b00a2;
  0x839748f8527b78e24ad8db01202a6d19c1a4b279248c54c1e916980aaf900ac3;
  0xc4b79da6c325c44ab4c34b7abb7df48f5c72c4a170360dab43ef080f67230536;
  0xbfb39e358d3e3ec54832ee23237c8bdc278199a081bec0b446e2b600357f9c56;
  0xd345dc0027f54d06369d18ce839582037bcc4de938fcaa71371467abb7e945a5;
  0x97891548790cee35b306f71ad7c90e3ddc067dcf45e17124943f91d006de2063;
  0xf4ed645d32a5224da76f3d586cb17df797e6923813bdc84648adb4b92761703a;
  0x304f119f2dfa2851e4aafd8c0884862afb77222f376dd500cead56f2235826a3;
  0x61e193ae6f6600fa9799f7551ce789ae4ce483682ad375873d5b8d16d85db338;
  0x7791f09c4ca7d59f55835b3e1bb3e29eb94f6b2862eaae4bacbe859e323172ef;
  0xeea8066d4256a0c85096aeb64406c494716fc7c7aa96e5271c6adb662e4c3fd2;
  0xe292287aa4833432d0a2fad26673b11e533ffa03752365155d2366f29d3790b3;
  0xb6293eff4bc30337c211b6094bde104dc078e4a1eb985d7de25bcfca6cd7d8bf;
  0xb860663c21d8516b796d39b39dc70af4fe949afd48ef38131c0a457be1626413;
  0x4d8855a62bacbaa67ebc25e3a67072d2bf614624cf25ffa22b4ac6d64f74e9fc;
  0xa0f89fb0ff469b5955a693873fb7c711115b4b03e0dc8fe05a554d5b800b224a;
  0xe521ba4be887fdbaf978a64c4fb85b1b9f834ea70a4eb82ee6325bd6f9e35e90;
  0x5d0b6c60d166f26f9d97615d55f3217e378685c07f64210e65e837c0bdbaaa3e;
  0x72aa4a50414a5faa7e26958fb9216b1196ff04240ceb680f0a20442907ca9c1b;
  0x25b66a5cfc1d486085906fd071331fd48b97e2fb67cc0eb6d1c8356dc7584c2;
  0x63dc7780565c42803af4c49a84005620b7fc31057e4488f383bd6499bd3bfadf;
  0xbdb3db47b5b6aebe007b80b34c80da42388f63b238e4e856333a2856b37468;
  0x4579755d10f7c55690461db968ebdd90e4b6b609e8767bb51f2dedbae1a5ebc4;
  0x527d0bc856eb799ecb55cde566e11024b5693578b23d522a72a2e0dff8a6413;
  0x82632a594fc20bc2a237a43c79364b57a7456d96670c2a6372998eba8087ddea;
  0xf58a91de2a58da72e196609d187214ccd27b931c4a4259933070bb0c1efefa85;
  0x77ad071973e16d6d513d8a6bdafa572a5fe0727908e482617f0030e91b6db4ad;
  0xcd679d9f3fc4af91e4ef8380d279c6d5ce187ae61c83c89cb9045fb3ba40784;
  0xcdba2ac85a879bf8eb9e45bb6a6162e3a7b3731124992be4b10b0d3724b8bbf3;
  0xffd35018fc012692274d306206fb3122476cf0e64954241a50dda631d889ce8d;
  0x78f09b7aed430a3b8cdac62383e39d394d09d19fa4744e663059edd77aae4040;
  0x2b8f93143e35456eee7b0a93f51b524fee4db5e302ba4e42a1a7b3901cc37fe0;
  0x2deada5c1e74464cab8082bf29c634d8e9b368289a961c2ef2f6839fb2d31e0a;
  0xfae393db740dcc42aa75f021d15f27b4323944dbb17d44823c00c75c2267f83b;
  0x3ef74d19b10176d0018f08127c24525916d5e41112cec288f754820ba02ab88d;
  0x1244ac860386b812256c6236536c6a290341e60a48a34009b187ad25c4f1c322;
  0xcb6c84b3c9acf542a6629a4e82233bb76adef84fd80bcc647fef73a655ecb4bd;
  0x2e74a3ce2cc110e88e22641c7d3346d61bc06b2cb4519a4e58d8350c7b5bb3dc;
  0xe887272be342fccaa17e9a84d2e09702790a137e14bfa851676b4420cbbeb8ef;
  0xb863d110a420704c9a793d8f825c7448b73552d91df5efdca84edf5b50ae7a44;
  0xa7091d425ce1bcaa454ff89b23f1eb59fd4ac6dcf2ddf57e78633e02ccf707ef;
  0xb1c20a6de271a7366ee6d737454bf1735d420cc02844749e1fa3a4000af50e18;
  0x6b948575850c1b22c5471e4f90ae68a9439219e63b2c7f5b372f6dc7852f1e0a;
  0xb5a44079be7938669b7b38245cbb219f6f968469710dbcaecd29106474ead633;
  0x3ee376558296e48ee56fe4a198ebe841101fed23daf7e98b5a64e20f0c6159c2;
  0x62b9d7ccf126f5d0501b99b9d014603b046a47d6e86ddb65484bf5d3c0f8bf9e].
