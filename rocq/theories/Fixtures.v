(** Generated from tests/resources/*.csv of /repo (prices after ffill; the NaN mask reproduces
    numpy's np.random.seed(0) / np.random.choice of tests/test_iewma_nans.py). *)
From Coq Require Import Floats List Bool.
Import ListNotations.
Local Open Scope float_scope.

Definition prices : list (list float) :=
 [[0x1.8911ec02f2f98p+9; 0x1.c763ee1bd1edap+6; 0x1.d370a41a261bfp+6; 0x1.626665e02ea96p+6; 0x1.78d5c200c0f02p+9; 0x1.e678f7985271cp+4; 0x1.6dc28f5c28f5cp+3; 0x1.0a21ede1198afp+6; 0x1.618bd87b56b87p+4; 0x1.0b53c3e74afd5p+5; 0x1.3eede00d1b717p+5; 0x1.ddeb862b27cbfp+4; 0x1.370a3d70a3d71p+3; 0x1.5aaed41b75a75p+6; 0x1.036f3dc054ef4p+5; 0x1.4b92c625e99e9p+5; 0x1.a1326e115592ep+6; 0x1.f759fa11a975bp+4; 0x1.51a7ebf22c01ep+6; 0x1.b06256366d7a5p+5];
  [0x1.897333fc86cecp+9; 0x1.c6e173fb7a5f4p+6; 0x1.dac28fe260b2dp+6; 0x1.6a0a3df6db941p+6; 0x1.7a970a02b8412p+9; 0x1.e6a04189374bcp+4; 0x1.6dc28f5c28f5cp+3; 0x1.0baed5f138bcep+6; 0x1.682311e85fd05p+4; 0x1.1a14ddf86e3b4p+5; 0x1.3d13682730c67p+5; 0x1.e8a3d816aceabp+4; 0x1.4b851eb851eb8p+3; 0x1.56de5de15ca6dp+6; 0x1.0afea8112ba17p+5; 0x1.5367ba237cdcdp+5; 0x1.a527d5ed06fefp+6; 0x1.fbc65d7cb2d90p+4; 0x1.524759ee88df3p+6; 0x1.b56239e6ab9b2p+5];
  [0x1.8d029003eea21p+9; 0x1.c931a21ea3593p+6; 0x1.e2ae13f4a98abp+6; 0x1.797ae21101b00p+6; 0x1.863999fe43676p+9; 0x1.e3dce18266773p+4; 0x1.67ae147ae147bp+3; 0x1.0c43ade225fa6p+6; 0x1.63e6698bb4d49p+4; 0x1.14c1fe21d96eap+5; 0x1.3c2fabda0dfdfp+5; 0x1.e4a3d816aceabp+4; 0x1.4c7ae147ae148p+3; 0x1.51c1e81cb46bbp+6; 0x1.102ae429e0a42p+5; 0x1.4aa49235f8099p+5; 0x1.a8688a04d1202p+6; 0x1.0053f42352eb6p+5; 0x1.4f2a36199780cp+6; 0x1.b90e2435696e6p+5];
  [0x1.931333fc86cecp+9; 0x1.ce4a7221858bcp+6; 0x1.eda3d816aceabp+6; 0x1.778f5be5d9e41p+6; 0x1.8dfeb7fe08af0p+9; 0x1.e53e920c069e8p+4; 0x1.6a3d70a3d70a4p+3; 0x1.0895061416378p+6; 0x1.63e6698bb4d49p+4; 0x1.11b735c182ecbp+5; 0x1.35e2efd438d1ep+5; 0x1.e7851dabe2718p+4; 0x1.31eb851eb851fp+3; 0x1.51911409a2403p+6; 0x1.106801f75104dp+5; 0x1.4ba6a22b3892fp+5; 0x1.ab767be553ac5p+6; 0x1.feac43f5f9160p+4; 0x1.4f3429e0a41a2p+6; 0x1.be4a05dd8f92bp+5];
  [0x1.935333fc86cecp+9; 0x1.d28670196d8f5p+6; 0x1.f3999a1fd156ap+6; 0x1.7ae147f130596p+6; 0x1.8e75c200c0f02p+9; 0x1.e2f1162281345p+4; 0x1.6fae147ae147bp+3; 0x1.0a5389f83be66p+6; 0x1.61dc2c1b10fd8p+4; 0x1.11de260b2c83fp+5; 0x1.31fc93ea2d2fep+5; 0x1.e7851dabe2718p+4; 0x1.2333333333333p+3; 0x1.4bff70153bd16p+6; 0x1.04b533f42352fp+5; 0x1.50122424a276bp+5; 0x1.aaa13be22e5dep+6; 0x1.fe853c148344cp+4; 0x1.4f6ff3f0fe048p+6; 0x1.c6a5d63886595p+5];
  [0x1.92651dffc547ap+9; 0x1.d2fee2003ab86p+6; 0x1.f16665e02ea96p+6; 0x1.8300000000000p+6; 0x1.8df333fc86cecp+9; 0x1.e18f69ca9ef52p+4; 0x1.6e147ae147ae1p+3; 0x1.08773ffac1d2ap+6; 0x1.67fae7924af0cp+4; 0x1.1c0f13cee9dd8p+5; 0x1.320fc610f0e91p+5; 0x1.eb5c27e953155p+4; 0x1.247ae147ae148p+3; 0x1.47c38fffbce42p+6; 0x1.097b91f70de8fp+5; 0x1.541a63f9a49c3p+5; 0x1.a9b7a9e2bcf92p+6; 0x1.fe1017dae8188p+4; 0x1.50691212513b6p+6; 0x1.c425e5f30e7ffp+5];
  [0x1.93f479fec99f2p+9; 0x1.d58141e9af5bap+6; 0x1.f85c27e953155p+6; 0x1.83c28fe260b2dp+6; 0x1.8f829003eea21p+9; 0x1.e318644523f68p+4; 0x1.6666666666666p+3; 0x1.09a0ee06d9381p+6; 0x1.6a0521dda059ap+4; 0x1.209f401c4fc1ep+5; 0x1.308fca42aed14p+5; 0x1.e8cccbc05d52cp+4; 0x1.23851eb851eb8p+3; 0x1.4b1ed9dfdac69p+6; 0x1.0ad5e7c8d1959p+5; 0x1.50b0f1f57b41cp+5; 0x1.aba9420b3d4aep+6; 0x1.f4c22dd7a99fap+4; 0x1.52f0be0ded289p+6; 0x1.c5dddc1e7967dp+5];
  [0x1.932e13fd0d068p+9; 0x1.d38b65ecc3e32p+6; 0x1.fa7ae21101b00p+6; 0x1.7f999a1fd156ap+6; 0x1.96d1ec02f2f98p+9; 0x1.e1ddffc5479d5p+4; 0x1.5851eb851eb85p+3; 0x1.0775421c04428p+6; 0x1.67aa8b8f14db6p+4; 0x1.1d46961c36977p+5; 0x1.338fc1df3300ep+5; 0x1.e61479d4d8341p+4; 0x1.19eb851eb851fp+3; 0x1.4953e9ea14057p+6; 0x1.0e7f0fe047d3dp+5; 0x1.56f8dde7a743ap+5; 0x1.af3b341e14be0p+6; 0x1.f1400fba8826bp+4; 0x1.4fabbbe878facp+6; 0x1.c551dbca9691ap+5];
  [0x1.93f0a400fba88p+9; 0x1.d2b8a009f6230p+6; 0x1.00ae13f4a98abp+7; 0x1.81147a17f4129p+6; 0x1.9891ec02f2f98p+9; 0x1.e1681dc0db270p+4; 0x1.528f5c28f5c29p+3; 0x1.0433bddfc9ff9p+6; 0x1.69141a6937d20p+4; 0x1.1bfb99d451fc5p+5; 0x1.332fc1df3300ep+5; 0x1.e147ae147ae14p+4; 0x1.17ae147ae147bp+3; 0x1.495dadfb506ddp+6; 0x1.0bb601ffb480ap+5; 0x1.53ded634549b6p+5; 0x1.af310be9424e6p+6; 0x1.f007b02d59d56p+4; 0x1.517615ebfa8f8p+6; 0x1.c3e9e7fb267c7p+5];
  [0x1.924e13fd0d068p+9; 0x1.d67c3009b3073p+6; 0x1.ff7ae21101b00p+6; 0x1.807ae21101b00p+6; 0x1.94dc28027d88cp+9; 0x1.e0066e43aa79cp+4; 0x1.3a3d70a3d70a4p+3; 0x1.0933c60029f17p+6; 0x1.5a03925bb7b6cp+4; 0x1.1bc1322f27350p+5; 0x1.344fbfc6540ccp+5; 0x1.e23d6f9767903p+4; 0x1.1d70a3d70a3d7p+3; 0x1.4d37e80389f84p+6; 0x1.0caa7a41e57dap+5; 0x1.5c032fcac8e69p+5; 0x1.ae0068123810fp+6; 0x1.e9037c5692b3dp+4; 0x1.45335c182ecafp+6; 0x1.c515e2046c765p+5];
  [0x1.9308f5fd47beep+9; 0x1.d67223e186983p+6; 0x1.ffae13f4a98abp+6; 0x1.8000000000000p+6; 0x1.93bd6ffc115dfp+9; 0x1.df693c03bc4d2p+4; 0x1.3c28f5c28f5c3p+3; 0x1.08002de00d1b7p+6; 0x1.631d8d79d0a67p+4; 0x1.1cf8b60f1b25fp+5; 0x1.31fc93ea2d2fep+5; 0x1.d59999999999ap+4; 0x1.1bd70a3d70a3dp+3; 0x1.49195208e1501p+6; 0x1.115c7a398201dp+5; 0x1.5b28d434a01acp+5; 0x1.af086df82b1f7p+6; 0x1.e88e560418937p+4; 0x1.46b7fa1a0cf18p+6; 0x1.c899ce075f6fdp+5];
  [0x1.91166601bc98ap+9; 0x1.d59f5be5d9e41p+6; 0x1.fe3333fc86cecp+6; 0x1.80ae13f4a98abp+6; 0x1.94851dffc547ap+9; 0x1.df1aa1d755bcdp+4; 0x1.38a3d70a3d70ap+3; 0x1.0619f7f8ca81ap+6; 0x1.618bd87b56b87p+4; 0x1.1badbbe0157efp+5; 0x1.337c903ea704cp+5; 0x1.d333343fa2ad4p+4; 0x1.1e147ae147ae1p+3; 0x1.432fd21ff2e49p+6; 0x1.1250f1f57b41cp+5; 0x1.5251d041cc533p+5; 0x1.ae846bf01322fp+6; 0x1.e385c4651f3e9p+4; 0x1.443a41e57d9dcp+6; 0x1.c439e6256366dp+5];
  [0x1.92829003eea21p+9; 0x1.d67c3009b3073p+6; 0x1.fc28f605ab3abp+6; 0x1.803d701d9f4d3p+6; 0x1.942a3dff3f0fep+9; 0x1.d4aa5614df8b1p+4; 0x1.3800000000000p+3; 0x1.046559f6ec5b0p+6; 0x1.6345b9e8c47a1p+4; 0x1.19791dde37586p+5; 0x1.36dc842fa5094p+5; 0x1.d051eb851eb85p+4; 0x1.2a8f5c28f5c29p+3; 0x1.479c8216c6152p+6; 0x1.12df8fcd67fd4p+5; 0x1.5039d7fd82774p+5; 0x1.b430980b24207p+6; 0x1.e49715c63ae25p+4; 0x1.45aaec0724b77p+6; 0x1.c26dee34fc611p+5];
  [0x1.99a7ae03b3e9ap+9; 0x1.d6cc7c0f45176p+6; 0x1.01dc280ae1049p+7; 0x1.89a3d816aceabp+6; 0x1.98f0a400fba88p+9; 0x1.c8b10dbf0563fp+4; 0x1.3d1eb851eb852p+3; 0x1.0257720c8cd64p+6; 0x1.62045996744b3p+4; 0x1.16bc33f85510dp+5; 0x1.3afc7a398201dp+5; 0x1.c733343fa2ad4p+4; 0x1.2a8f5c28f5c29p+3; 0x1.441a2a0a95853p+6; 0x1.0fb0a5efe9318p+5; 0x1.519f27fe4bcaep+5; 0x1.b2e177ea1c68fp+6; 0x1.dfdc9c4da9004p+4; 0x1.45d2c7fbacb43p+6; 0x1.c335e9e1b089ap+5];
  [0x1.9bef5bff04578p+9; 0x1.d65e13f4a98abp+6; 0x1.02bd6ffc115dfp+7; 0x1.95b851eb851ecp+6; 0x1.9b3851fc4c166p+9; 0x1.cc8784230fcf8p+4; 0x1.4e147ae147ae1p+3; 0x1.053faa044ae86p+6; 0x1.682311e85fd05p+4; 0x1.1965a1cac0831p+5; 0x1.362fbe33acd5bp+5; 0x1.c8a3d816aceabp+4; 0x1.2dc28f5c28f5cp+3; 0x1.448f540895d0bp+6; 0x1.0f0dac258d584p+5; 0x1.5681c3efae792p+5; 0x1.b407f5e84f095p+6; 0x1.db221d96e9bbfp+4; 0x1.49c12dfd694cdp+6; 0x1.c885ca29845ddp+5];
  [0x1.a1d5c200c0f02p+9; 0x1.dddb242070b8dp+6; 0x1.06f5c209246bfp+7; 0x1.a03d701d9f4d3p+6; 0x1.a2429003eea21p+9; 0x1.d2359253543afp+4; 0x1.4b33333333333p+3; 0x1.03459817b95a3p+6; 0x1.6eba4c61d8623p+4; 0x1.2321bfbdf090fp+5; 0x1.36695421c0443p+5; 0x1.d4cccbc05d52cp+4; 0x1.18a3d70a3d70ap+3; 0x1.4583721d53cdep+6; 0x1.0d391a32b12d3p+5; 0x1.5a625204af923p+5; 0x1.b51a2a0a95853p+6; 0x1.dd44cbe1eb420p+4; 0x1.4eda7ded6ba8cp+6; 0x1.ca8dc22ab25b3p+5];
  [0x1.a01333fc86cecp+9; 0x1.de175e2046c76p+6; 0x1.098f5c0767d35p+7; 0x1.9b00000000000p+6; 0x1.a39333fc86cecp+9; 0x1.d1710fd7e4580p+4; 0x1.50a3d70a3d70ap+3; 0x1.02a6d3f9e7b81p+6; 0x1.6fd3825e13b19p+4; 0x1.1d5a0dfdef848p+5; 0x1.3942e3c536d65p+5; 0x1.d21479d4d8341p+4; 0x1.fd70a3d70a3d7p+2; 0x1.4681561911490p+6; 0x1.1213d4280ae10p+5; 0x1.5eb9f7f8ca81ap+5; 0x1.b1e398201cd60p+6; 0x1.dd1dbdb5d8948p+4; 0x1.51a7ebf22c01ep+6; 0x1.c8adcc20d562ap+5];
  [0x1.9ba7ae03b3e9ap+9; 0x1.de2163fdd65a1p+6; 0x1.085c280ae1049p+7; 0x1.9847ae147ae14p+6; 0x1.a1e29003eea21p+9; 0x1.ccaed245b291cp+4; 0x1.5570a3d70a3d7p+3; 0x1.fd022dd7a99fap+5; 0x1.6e921ff2e48e9p+4; 0x1.19791dde37586p+5; 0x1.3b0fabda0dfdfp+5; 0x1.d21479d4d8341p+4; 0x1.dae147ae147aep+2; 0x1.462975f2cb641p+6; 0x1.1c2f2e05ccc8ap+5; 0x1.51143419e3001p+5; 0x1.b3b6b7ed41b76p+6; 0x1.df406c00da1a9p+4; 0x1.525b480a5accdp+6; 0x1.b66634117f844p+5];
  [0x1.9128f5fd47beep+9; 0x1.dce036006d0d5p+6; 0x1.05f5c209246bfp+7; 0x1.94147a17f4129p+6; 0x1.9f30a400fba88p+9; 0x1.cbea51e321a2ep+4; 0x1.53851eb851eb8p+3; 0x1.01733a0407cc8p+6; 0x1.682311e85fd05p+4; 0x1.144d2dcb1465fp+5; 0x1.39a2e3c536d65p+5; 0x1.cf0a3e7d13511p+4; 0x1.b70a3d70a3d71p+2; 0x1.43aec204f2ae0p+6; 0x1.0952d5e071c54p+5; 0x1.56e503fb37436p+5; 0x1.b1925e13b18dbp+6; 0x1.dd92e1ef73c0cp+4; 0x1.4eda7ded6ba8cp+6; 0x1.b4ae3de6149c7p+5];
  [0x1.8e651dffc547ap+9; 0x1.dbc72c0e7bc3cp+6; 0x1.04a3d7f51efb7p+7; 0x1.953d701d9f4d3p+6; 0x1.9bbd6ffc115dfp+9; 0x1.c7ec8e68e3ef3p+4; 0x1.4bd70a3d70a3dp+3; 0x1.02b0c1fc8f323p+6; 0x1.6345b9e8c47a1p+4; 0x1.166e53eb399f6p+5; 0x1.3c2fa9c12f09ep+5; 0x1.57d70a3d70a3dp+4; 0x1.beb851eb851ecp+2; 0x1.3ffb940fecdd1p+6; 0x1.015d8be7296f6p+5; 0x1.59388c1db0143p+5; 0x1.a5ca51e321a2ep+6; 0x1.e3fae685db76bp+4; 0x1.49677e1b8ed1cp+6; 0x1.af5e5c0b99913p+5];
  [0x1.8dd8f5fd47beep+9; 0x1.f8ca8deb0fadfp+6; 0x1.0a75c209246bfp+7; 0x1.9647ae147ae14p+6; 0x1.a02ccc0379314p+9; 0x1.c7c5425f20210p+4; 0x1.81eb851eb851fp+3; 0x1.00b6b1e5c0b9ap+6; 0x1.6732085b18549p+4; 0x1.12db402d16b98p+5; 0x1.3b6fadf2ecf20p+5; 0x1.570a3e7d13511p+4; 0x1.a99999999999ap+2; 0x1.3c5bf01322f27p+6; 0x1.fa4b945308bb9p+4; 0x1.5910d9d7774acp+5; 0x1.a083b213e3e29p+6; 0x1.e7fc7e6b3fea0p+4; 0x1.4aa657fb69985p+6; 0x1.a50e9813879c4p+5];
  [0x1.8f43d7fd82774p+9; 0x1.f7edc1e7967cbp+6; 0x1.05ae13f4a98abp+7; 0x1.935c27e953155p+6; 0x1.a3f999fe43676p+9; 0x1.c79df6555c52ep+4; 0x1.88f5c28f5c28fp+3; 0x1.02890ff972474p+6; 0x1.64871c53f39d2p+4; 0x1.0fbcfdd228566p+5; 0x1.34d6262cba733p+5; 0x1.4a66666666666p+4; 0x1.a666666666666p+2; 0x1.3e4dedf1e0829p+6; 0x1.04ddf43c7d5edp+5; 0x1.5797afea3df6ep+5; 0x1.a111dde37585cp+6; 0x1.e8e92a3055326p+4; 0x1.493fa3fcc9eaap+6; 0x1.a4d29802c0a4ap+5];
  [0x1.90beb7fe08af0p+9; 0x1.fa15c9e6687f4p+6; 0x1.05f5c209246bfp+7; 0x1.918f5be5d9e41p+6; 0x1.951999fe43676p+9; 0x1.c7ec8e68e3ef3p+4; 0x1.87ae147ae147bp+3; 0x1.01c29a1b9f98bp+6; 0x1.6d78e9f6a93f3p+4; 0x1.144d2dcb1465fp+5; 0x1.355c89f40a287p+5; 0x1.4b33343fa2ad4p+4; 0x1.b851eb851eb85p+2; 0x1.3ea5ce1826677p+6; 0x1.0a5bafd976ff4p+5; 0x1.5ad969e3c9689p+5; 0x1.a6c8301a79fedp+6; 0x1.ee75360d02470p+4; 0x1.53546412cf0fap+6; 0x1.ae1e63e8dda49p+5];
  [0x1.90ab86013660ep+9; 0x1.fed4441787054p+6; 0x1.081eb80ecfa6ap+7; 0x1.93999a1fd156ap+6; 0x1.93d1ec02f2f98p+9; 0x1.c74f605ab3aacp+4; 0x1.b428f5c28f5c3p+3; 0x1.015f61ed5ae1dp+6; 0x1.6acdfdef8487cp+4; 0x1.181aa821f2991p+5; 0x1.33efbfc6540ccp+5; 0x1.499999999999ap+4; 0x1.a147ae147ae14p+2; 0x1.3dc539fba450bp+6; 0x1.0ddc13fd0d068p+5; 0x1.54e0e410b630bp+5; 0x1.a6d2580c308ffp+6; 0x1.f09d72367e415p+4; 0x1.51bbd7f51efb7p+6; 0x1.b35a43fe5c91dp+5];
  [0x1.937c28027d88cp+9; 0x1.01d86c00da1a9p+7; 0x1.07ae13f4a98abp+7; 0x1.9351ec0b56755p+6; 0x1.9640000000000p+9; 0x1.c5c65f9591cd2p+4; 0x1.a947ae147ae14p+3; 0x1.03459817b95a3p+6; 0x1.675a35d67ba23p+4; 0x1.0af269df97aabp+5; 0x1.3462f1ed17c5fp+5; 0x1.47851dabe2718p+4; 0x1.6a3d70a3d70a4p+2; 0x1.3bb5f202107b8p+6; 0x1.07cfbfc6540ccp+5; 0x1.518b4e11dbca9p+5; 0x1.a6dc7de5082cfp+6; 0x1.ee4dc443914f5p+4; 0x1.518a0620ab713p+6; 0x1.b17827fa1a0cfp+5];
  [0x1.9430a400fba88p+9; 0x1.02d85ff1d81f1p+7; 0x1.0c666601bc98ap+7; 0x1.9e47ae147ae14p+6; 0x1.99dae2003ab86p+9; 0x1.c3c77ff151e75p+4; 0x1.b1eb851eb851fp+3; 0x1.06d67be553ac5p+6; 0x1.63be3e29307afp+4; 0x1.0b4047d3d4281p+5; 0x1.350fbfc6540ccp+5; 0x1.5147ae147ae14p+4; 0x1.6eb851eb851ecp+2; 0x1.39a1d60631727p+6; 0x1.05be0bd44998dp+5; 0x1.542e3bcd35a86p+5; 0x1.a7565e02ea961p+6; 0x1.ef3a7008a697bp+4; 0x1.4e94bbe4473cdp+6; 0x1.b14ff7dfa00e2p+5];
  [0x1.94c7ae03b3e9ap+9; 0x1.04b7340d4dc66p+7; 0x1.0c47adf2ecf20p+7; 0x1.9d5c27e953155p+6; 0x1.9aae13fd0d068p+9; 0x1.c63c47e49b1fbp+4; 0x1.ad70a3d70a3d7p+3; 0x1.0bc2b020c49bap+6; 0x1.6acdfdef8487cp+4; 0x1.0acb7a1c25d07p+5; 0x1.35cfbe33acd5bp+5; 0x1.5b5c27e953155p+4; 0x1.628f5c28f5c29p+2; 0x1.3b0491f2dc2b1p+6; 0x1.0d1059ea57215p+5; 0x1.5ad969e3c9689p+5; 0x1.a9a359ff4fd6dp+6; 0x1.f2ed245b291b8p+4; 0x1.53685015c2092p+6; 0x1.b5f12fd32c626p+5];
  [0x1.96d5c200c0f02p+9; 0x1.041ffe08aefb3p+7; 0x1.0c6147f130596p+7; 0x1.9970a41a261bfp+6; 0x1.9dbae2003ab86p+9; 0x1.c83b2788db057p+4; 0x1.b28f5c28f5c29p+3; 0x1.07a6ddf00abf7p+6; 0x1.6a2d4e4c942d5p+4; 0x1.0b7ab21815a08p+5; 0x1.365621fafc8b0p+5; 0x1.599999999999ap+4; 0x1.bd70a3d70a3d7p+2; 0x1.3da2a1f8e3ac1p+6; 0x1.07bb60285ec3ep+5; 0x1.5a7629d8409e5p+5; 0x1.a984e1e71044fp+6; 0x1.f276c9c0a8d22p+4; 0x1.52a107faa044bp+6; 0x1.b928d002e2329p+5];
  [0x1.999eb7fe08af0p+9; 0x1.066db20b8066cp+7; 0x1.0c1999fe43676p+7; 0x1.9c6665e02ea96p+6; 0x1.a243d7fd82774p+9; 0x1.cd24b662fdfc2p+4; 0x1.afae147ae147bp+3; 0x1.06aec9e236c16p+6; 0x1.6f32cf95d4e90p+4; 0x1.0e24241c3efaep+5; 0x1.30dc981beb181p+5; 0x1.551eb851eb852p+4; 0x1.999999999999ap+2; 0x1.3f7ba01eeed89p+6; 0x1.02e09dcf893fbp+5; 0x1.54f4c22ee4192p+5; 0x1.ad868a0d349bfp+6; 0x1.f67861a60d456p+4; 0x1.571ae9ee45c36p+6; 0x1.b84bd7f51efb7p+5];
  [0x1.9a3999fe43676p+9; 0x1.09d5aa0cae643p+7; 0x1.0bb333fc86cecp+7; 0x1.965c27e953155p+6; 0x1.a231ec02f2f98p+9; 0x1.d0d3e1c9b413ap+4; 0x1.a851eb851eb85p+3; 0x1.0a21ede1198afp+6; 0x1.798e2e2b8c75cp+4; 0x1.1b38e9f6a93f3p+5; 0x1.319c93ea2d2fep+5; 0x1.5c28f5c28f5c3p+4; 0x1.c666666666666p+2; 0x1.3eca41e57d9dcp+6; 0x1.051b1209edbf9p+5; 0x1.5f311409a2403p+5; 0x1.afe7da1ec4e72p+6; 0x1.f8a0a41a261bfp+4; 0x1.5c97de0d66f0dp+6; 0x1.bbfc0229a5ebbp+5];
  [0x1.997d6ffc115dfp+9; 0x1.0acca4095f245p+7; 0x1.0ae147f130596p+7; 0x1.963333fc86cecp+6; 0x1.a55999fe43676p+9; 0x1.d1e6f60e0eb68p+4; 0x1.a99999999999ap+3; 0x1.0a3fb3fa6defcp+6; 0x1.81b71fbc5de9cp+4; 0x1.1a016616b54e3p+5; 0x1.3462f1ed17c5fp+5; 0x1.5e3d6f9767903p+4; 0x1.e51eb851eb852p+2; 0x1.401949e8815e4p+6; 0x1.069e260b2c83fp+5; 0x1.6413ade225fa6p+5; 0x1.b2fff21b3aeefp+6; 0x1.022b3fe9fadb0p+5; 0x1.609a2df9378eep+6; 0x1.be2e78183f91ep+5];
  [0x1.9c1479fec99f2p+9; 0x1.0a7bfdf7e8039p+7; 0x1.0bae13f4a98abp+7; 0x1.9347ae147ae14p+6; 0x1.a611ec02f2f98p+9; 0x1.d36ff3ade2260p+4; 0x1.9f0a3d70a3d71p+3; 0x1.0af24febd09e1p+6; 0x1.81b71fbc5de9cp+4; 0x1.19a00c0f01fb8p+5; 0x1.355c89f40a287p+5; 0x1.5a3d6f9767903p+4; 0x1.d8f5c28f5c28fp+2; 0x1.3cc9da16616b5p+6; 0x1.f1391600f3450p+4; 0x1.5fcfe1da7b0b4p+5; 0x1.b1925e13b18dbp+6; 0x1.030431bde82d8p+5; 0x1.605e681a9b8ccp+6; 0x1.bd294ff0025c0p+5];
  [0x1.9e08f5fd47beep+9; 0x1.0b367dfe32a06p+7; 0x1.0b0f5c0767d35p+7; 0x1.92147a17f4129p+6; 0x1.a688f5fd47beep+9; 0x1.d2359253543afp+4; 0x1.a428f5c28f5c3p+3; 0x1.0ce271fff79c8p+6; 0x1.80c61847f5621p+4; 0x1.1b11fa333764fp+5; 0x1.37161dc93ea2dp+5; 0x1.5e1479d4d8341p+4; 0x1.e28f5c28f5c29p+2; 0x1.3ab5bff04577ep+6; 0x1.f1b355cd91eebp+4; 0x1.5ecdd616f86a1p+5; 0x1.b20c36113404fp+6; 0x1.030431bde82d8p+5; 0x1.5f337c1376d55p+6; 0x1.c206cc1ca3a4bp+5];
  [0x1.9fd479fec99f2p+9; 0x1.0d247000431bep+7; 0x1.0b70a3f8982cbp+7; 0x1.987ae21101b00p+6; 0x1.ac3851fc4c166p+9; 0x1.d4830a0b1bbcfp+4; 0x1.c000000000000p+3; 0x1.14f2641b328b7p+6; 0x1.84da9003eea21p+4; 0x1.1f8eae18ac9f3p+5; 0x1.38f61a1db877bp+5; 0x1.5c7ae2541d8e8p+4; 0x1.01eb851eb851fp+3; 0x1.3b35d5f56a7adp+6; 0x1.e42bf65dbfcebp+4; 0x1.648ac9f2fdb90p+5; 0x1.b4fbb1f255f35p+6; 0x1.030431bde82d8p+5; 0x1.623cb20fb224bp+6; 0x1.c3847a17f4129p+5];
  [0x1.9f614801f7510p+9; 0x1.0df315f88fc93p+7; 0x1.103d6ffc115dfp+7; 0x1.a0cccc0379314p+6; 0x1.abce13fd0d068p+9; 0x1.d1985dfa871a4p+4; 0x1.c8f5c28f5c28fp+3; 0x1.15f461f9f01b8p+6; 0x1.8502bd7f51efbp+4; 0x1.1fc915bdd7668p+5; 0x1.37e94dd72367ep+5; 0x1.5deb862b27cbfp+4; 0x1.0a8f5c28f5c29p+3; 0x1.3783dc054ef46p+6; 0x1.dc5f6db940fedp+4; 0x1.6286ac215b9a6p+5; 0x1.b220880d801b4p+6; 0x1.02c9081c2e33fp+5; 0x1.626e820e62995p+6; 0x1.c3c0bdcad14a1p+5];
  [0x1.9faa3dff3f0fep+9; 0x1.0ccec00da1a93p+7; 0x1.0eb8520d130e0p+7; 0x1.99d709fa54c55p+6; 0x1.aa1851fc4c166p+9; 0x1.d083137b07076p+4; 0x1.ca3d70a3d70a4p+3; 0x1.146778140dd40p+6; 0x1.81b71fbc5de9cp+4; 0x1.1b4c61d8622c4p+5; 0x1.3a9c7bcc2938ep+5; 0x1.5ab851eb851ecp+4; 0x1.fa3d70a3d70a4p+2; 0x1.3ac97204295a7p+6; 0x1.cc9d9c27e9531p+4; 0x1.5797afea3df6ep+5; 0x1.b748adeebb342p+6; 0x1.066801f75104dp+5; 0x1.62b441fea8113p+6; 0x1.c44d5bee3d5fep+5];
  [0x1.9e51ec02f2f98p+9; 0x1.0d1045fe11127p+7; 0x1.0ee147f130596p+7; 0x1.9bcccc0379314p+6; 0x1.a69eb7fe08af0p+9; 0x1.d3247baa9b49ap+4; 0x1.c3d70a3d70a3dp+3; 0x1.189723ee1bd1fp+6; 0x1.7c391a32b12d3p+4; 0x1.18a2f405f6ba0p+5; 0x1.3dafa3fcc9eaap+5; 0x1.5cf5c182ecaefp+4; 0x1.ef5c28f5c28f6p+2; 0x1.3817ae147ae14p+6; 0x1.b7ecb20fb224bp+4; 0x1.61490de093533p+5; 0x1.b850b5ed8d36bp+6; 0x1.07f273d5bab22p+5; 0x1.5f971fff79c84p+6; 0x1.c30bf3bea91dap+5];
  [0x1.9ea3d7fd82774p+9; 0x1.0d985a0be5109p+7; 0x1.10d1ec0b56755p+7; 0x1.9e6665e02ea96p+6; 0x1.a851ec02f2f98p+9; 0x1.cf463065f9592p+4; 0x1.e666666666666p+3; 0x1.161225fa658c5p+6; 0x1.818ef459d9903p+4; 0x1.1b7352220bc38p+5; 0x1.39a2e3c536d65p+5; 0x1.5800000000000p+4; 0x1.0147ae147ae14p+3; 0x1.39dcf5f4e4431p+6; 0x1.b932a5a469d73p+4; 0x1.65dc422036007p+5; 0x1.b69c0c1fc8f32p+6; 0x1.0819e83e425afp+5; 0x1.5ffac3eb7cbb4p+6; 0x1.bd8dc22ab25b3p+5];
  [0x1.9b9ae2003ab86p+9; 0x1.0db69c0229a5fp+7; 0x1.0f1479f666235p+7; 0x1.9b999a1fd156ap+6; 0x1.a6851dffc547ap+9; 0x1.cd43382e44b6fp+4; 0x1.ceb851eb851ecp+3; 0x1.12ee69f05ea25p+6; 0x1.8348d7e02645ep+4; 0x1.182e2003ab863p+5; 0x1.39694a2b9d3ccp+5; 0x1.49eb862b27cbfp+4; 0x1.f5c28f5c28f5cp+2; 0x1.390429e0a41a2p+6; 0x1.b79b3397dd00fp+4; 0x1.56325dd095af3p+5; 0x1.b62c53f39d1b3p+6; 0x1.06de57d9dba91p+5; 0x1.60b817fc7607cp+6; 0x1.be428c36da87ap+5];
  [0x1.a19eb7fe08af0p+9; 0x1.1339de0503750p+7; 0x1.12d709fa54c55p+7; 0x1.a028f605ab3abp+6; 0x1.aa8a3dff3f0fep+9; 0x1.d3247baa9b49ap+4; 0x1.deb851eb851ecp+3; 0x1.11121c044284ep+6; 0x1.915f36262cba7p+4; 0x1.1caad601ffb48p+5; 0x1.3b4943e100608p+5; 0x1.499999999999ap+4; 0x1.ea3d70a3d70a4p+2; 0x1.3f8f562174c4dp+6; 0x1.bc8a5269595ffp+4; 0x1.46c40639d5e4ap+5; 0x1.bd83061c79b35p+6; 0x1.092e05ccc89b1p+5; 0x1.6c51700cd8559p+6; 0x1.c060f01fb82c3p+5];
  [0x1.9f50a400fba88p+9; 0x1.119787f023e9fp+7; 0x1.11851e108c3f4p+7; 0x1.9cc28fe260b2dp+6; 0x1.a87479fec99f2p+9; 0x1.d3247baa9b49ap+4; 0x1.bcccccccccccdp+3; 0x1.1245b81301648p+6; 0x1.8d1f43c7d5ed0p+4; 0x1.1f2d5410f94c8p+5; 0x1.3b82de00d1b71p+5; 0x1.4ee147ae147aep+4; 0x1.f147ae147ae14p+2; 0x1.40a341e14bdfdp+6; 0x1.b538023a6ce36p+4; 0x1.5bc79fec99f1bp+5; 0x1.b99fd21ff2e49p+6; 0x1.09df87f023e9fp+5; 0x1.66a2a5e785b5bp+6; 0x1.c038c436fc159p+5];
  [0x1.9e8a3dff3f0fep+9; 0x1.1334d5f99c38bp+7; 0x1.125709fa54c55p+7; 0x1.9d3d701d9f4d3p+6; 0x1.a8f0a400fba88p+9; 0x1.d20f345069a4ep+4; 0x1.a0f5c28f5c28fp+3; 0x1.0f715a07b352bp+6; 0x1.906d6fda836ebp+4; 0x1.22c0663c74fb5p+5; 0x1.3b0fabda0dfdfp+5; 0x1.4970a3d70a3d7p+4; 0x1.e7ae147ae147bp+2; 0x1.3d6783dff3f10p+6; 0x1.b326559f6ec5bp+4; 0x1.5a3a9c12f09d9p+5; 0x1.bb402c0a4a05ep+6; 0x1.09f341e14bdfdp+5; 0x1.69344bf4cb189p+6; 0x1.c0109635610aep+5];
  [0x1.9de3d7fd82774p+9; 0x1.12570e0a84be4p+7; 0x1.12d709fa54c55p+7; 0x1.993d701d9f4d3p+6; 0x1.a74e13fd0d068p+9; 0x1.d033dc054ef46p+4; 0x1.a147ae147ae14p+3; 0x1.0edc8216c6152p+6; 0x1.8d6fd651b0cccp+4; 0x1.2051622813448p+5; 0x1.3aafadf2ecf20p+5; 0x1.40cccbc05d52cp+4; 0x1.e147ae147ae14p+2; 0x1.3ed41e14bdfd2p+6; 0x1.c52291fb3fa6ep+4; 0x1.5455f02c4d65ep+5; 0x1.b9be49f51697fp+6; 0x1.08a3f5f91600fp+5; 0x1.65c76ff3ade22p+6; 0x1.bcc4de3b8a19dp+5];
  [0x1.9ff479fec99f2p+9; 0x1.12b1c7ffde721p+7; 0x1.129999fe43676p+7; 0x1.9a851deefe500p+6; 0x1.a7029003eea21p+9; 0x1.ce094c447c30dp+4; 0x1.a19999999999ap+3; 0x1.0ed295e9e1b09p+6; 0x1.8ccea9e6eeb70p+4; 0x1.1d5a0dfdef848p+5; 0x1.3a1615ebfa8f8p+5; 0x1.3b0a3e7d13511p+4; 0x1.db851eb851eb8p+2; 0x1.3da2a1f8e3ac1p+6; 0x1.bc38d1d8a5482p+4; 0x1.597419e300150p+5; 0x1.b82815e39713bp+6; 0x1.05ddf43c7d5edp+5; 0x1.63cb441bb8c33p+6; 0x1.b9009fe86833cp+5];
  [0x1.a1af5bff04578p+9; 0x1.11abb1f255f35p+7; 0x1.1370a3f8982cbp+7; 0x1.9ce147f130596p+6; 0x1.a940000000000p+9; 0x1.cd1b9c7368ad7p+4; 0x1.a70a3d70a3d71p+3; 0x1.108a661283904p+6; 0x1.8d98244e93e1dp+4; 0x1.1e59bfdf7e804p+5; 0x1.3942e3c536d65p+5; 0x1.323d6f9767903p+4; 0x1.df5c28f5c28f6p+2; 0x1.37e667f90d9d7p+6; 0x1.b6553dea465a5p+4; 0x1.5db7e5eaab042p+5; 0x1.b83c69f8c21e2p+6; 0x1.054029f16b11cp+5; 0x1.6303fc0096febp+6; 0x1.b5649235f8099p+5];
  [0x1.a3570a02b8412p+9; 0x1.110a65f0f5a10p+7; 0x1.147ae1ef73c0cp+7; 0x1.9cf5c209246bfp+6; 0x1.aa80000000000p+9; 0x1.caf10dbf0563fp+4; 0x1.aa8f5c28f5c29p+3; 0x1.10c65e02ea961p+6; 0x1.8f02cc2d6a9c5p+4; 0x1.1af854046412dp+5; 0x1.3a894812be48ap+5; 0x1.3266666666666p+4; 0x1.0051eb851eb85p+3; 0x1.3a5d0e12e83a1p+6; 0x1.ba789e774eebfp+4; 0x1.5bb3c60029f17p+5; 0x1.b77b7414a4d2bp+6; 0x1.06544806290efp+5; 0x1.646ab21815a08p+6; 0x1.b113b213e3e29p+5];
  [0x1.a5a0000000000p+9; 0x1.11f2400fba882p+7; 0x1.159479f666235p+7; 0x1.9d8f5be5d9e41p+6; 0x1.aa3ae2003ab86p+9; 0x1.d488fd9fd36f8p+4; 0x1.bd1eb851eb852p+3; 0x1.11b6440f23897p+6; 0x1.8e619b90ea9e7p+4; 0x1.1af854046412dp+5; 0x1.3d9c6fbd273d6p+5; 0x1.3428f5c28f5c3p+4; 0x1.275c28f5c28f6p+3; 0x1.3a21eff9f87f0p+6; 0x1.b62c7da1ec4e7p+4; 0x1.5b6461f9f01b8p+5; 0x1.b925f80991794p+6; 0x1.06caa00192a73p+5; 0x1.6349ba1b19610p+6; 0x1.abe5e02ea960bp+5];
  [0x1.a6c51dffc547ap+9; 0x1.12107df5cf249p+7; 0x1.173333fc86cecp+7; 0x1.a4b851eb851ecp+6; 0x1.ab4b86013660ep+9; 0x1.ce094c447c30dp+4; 0x1.c8f5c28f5c28fp+3; 0x1.112055fbb517ap+6; 0x1.8e394face67d7p+4; 0x1.1b47021d10b20p+5; 0x1.3dc2d83c6c97ep+5; 0x1.30cccbc05d52cp+4; 0x1.270a3d70a3d71p+3; 0x1.3966b3fe9fadbp+6; 0x1.bf40abf76a2f5p+4; 0x1.5bc79fec99f1bp+5; 0x1.ba6ae9ee45c36p+6; 0x1.06caa00192a73p+5; 0x1.63996feb4a665p+6; 0x1.acaec41dd1a22p+5];
  [0x1.a6cf5bff04578p+9; 0x1.11a6a5f84cad5p+7; 0x1.16a3d7f51efb7p+7; 0x1.a100000000000p+6; 0x1.aa43d7fd82774p+9; 0x1.c915b4677b396p+4; 0x1.c333333333333p+3; 0x1.142203e63e8dep+6; 0x1.8e89e8815e397p+4; 0x1.1bf805e5f30e8p+5; 0x1.3ba943e100608p+5; 0x1.3051eb851eb85p+4; 0x1.199999999999ap+3; 0x1.37befbf401c50p+6; 0x1.b537d63022dd8p+4; 0x1.580ec7c957cd4p+5; 0x1.b64acde19fc2bp+6; 0x1.07a391d57ff9bp+5; 0x1.642ee807bbb62p+6; 0x1.a9db940fecdd1p+5];
  [0x1.a79999fe43676p+9; 0x1.148b940fecdd1p+7; 0x1.1770a3f8982cbp+7; 0x1.9ec28fe260b2dp+6; 0x1.aa7c28027d88cp+9; 0x1.cc7d2a62aa194p+4; 0x1.bf5c28f5c28f6p+3; 0x1.139614163779fp+6; 0x1.8c55ca6ca03c5p+4; 0x1.1cf7b7c7820a3p+5; 0x1.3f6939eadd591p+5; 0x1.375c27e953155p+4; 0x1.1851eb851eb85p+3; 0x1.3ba23bff8a8f4p+6; 0x1.bf923a29c779ap+4; 0x1.585e30014f8b6p+5; 0x1.bc5c83ec892abp+6; 0x1.0acc343b70ef5p+5; 0x1.650a2014727ddp+6; 0x1.abf9f5dfeb8d8p+5];
  [0x1.a863d7fd82774p+9; 0x1.14ff7ff151e75p+7; 0x1.17fae1ef73c0cp+7; 0x1.a6851deefe500p+6; 0x1.aab5c200c0f02p+9; 0x1.cc558d9b5e95bp+4; 0x1.b4ccccccccccdp+3; 0x1.130a2014727ddp+6; 0x1.8cf6f5caf2d80p+4; 0x1.1ce40bfe3b03ep+5; 0x1.3e493c03bc4d2p+5; 0x1.3d1eb851eb852p+4; 0x1.1eb851eb851ecp+3; 0x1.3be736049ecb3p+6; 0x1.b90a73f748a16p+4; 0x1.5910d9d7774acp+5; 0x1.bef099e0e7360p+6; 0x1.0941c1d6cf851p+5; 0x1.64b072085b185p+6; 0x1.ae0441fea8113p+5];
  [0x1.aa0f5bff04578p+9; 0x1.139eabffcdab2p+7; 0x1.17ae13f4a98abp+7; 0x1.a670a41a261bfp+6; 0x1.aa27ae03b3e9ap+9; 0x1.ce5881a1554fcp+4; 0x1.afae147ae147bp+3; 0x1.10e45bf26f1dcp+6; 0x1.874c5da6a4441p+4; 0x1.1720e410b630bp+5; 0x1.3f8f9fcb0c027p+5; 0x1.361479d4d8341p+4; 0x1.219999999999ap+3; 0x1.3ba23bff8a8f4p+6; 0x1.b62c7da1ec4e7p+4; 0x1.62ae5de15ca6dp+5; 0x1.bf93161a1db87p+6; 0x1.0868ca3e7d135p+5; 0x1.60f3dff3f0fe0p+6; 0x1.b5b4ea077036dp+5];
  [0x1.a83333fc86cecp+9; 0x1.168399f5dfeb9p+7; 0x1.17e147f130596p+7; 0x1.ad00000000000p+6; 0x1.ac7c28027d88cp+9; 0x1.cc2defc7a3982p+4; 0x1.ccccccccccccdp+3; 0x1.113e52157689dp+6; 0x1.80affc115df65p+4; 0x1.125d69d30270fp+5; 0x1.3e22d6238da3cp+5; 0x1.3970a3d70a3d7p+4; 0x1.25c28f5c28f5cp+3; 0x1.3ba23bff8a8f4p+6; 0x1.b984c37e6f71ap+4; 0x1.63da5c1c6088dp+5; 0x1.bde891e215337p+6; 0x1.08df25e56cd6cp+5; 0x1.5e6c3009b3073p+6; 0x1.b5f12fd32c626p+5];
  [0x1.9f3ae2003ab86p+9; 0x1.135314013ec46p+7; 0x1.15051e108c3f4p+7; 0x1.a45c27e953155p+6; 0x1.a59999fe43676p+9; 0x1.c6c385c67dfe3p+4; 0x1.ba3d70a3d70a4p+3; 0x1.10ee5c0b99913p+6; 0x1.6a5627bf61aa4p+4; 0x1.0973d20f2becfp+5; 0x1.3b96124074645p+5; 0x1.2fd70a3d70a3dp+4; 0x1.2333333333333p+3; 0x1.3afab81f969e4p+6; 0x1.b4bd8383ad9f1p+4; 0x1.58366be7afa72p+5; 0x1.b72a37ef5a965p+6; 0x1.07debbfd71b04p+5; 0x1.54259ff4fd6d8p+6; 0x1.b3d2ce032db1fp+5];
  [0x1.9ecb86013660ep+9; 0x1.166f6dfc5cdd5p+7; 0x1.172e13f4a98abp+7; 0x1.a85c27e953155p+6; 0x1.a807ae03b3e9ap+9; 0x1.c8ee17a02fb5dp+4; 0x1.c333333333333p+3; 0x1.124c36113404fp+6; 0x1.6913cddd6e04cp+4; 0x1.08391ff7164c7p+5; 0x1.385c8216c6152p+5; 0x1.3170a3d70a3d7p+4; 0x1.feb851eb851ecp+2; 0x1.3ab5bff04577ep+6; 0x1.aadd72367e415p+4; 0x1.5fb661f18c9fbp+5; 0x1.ba19afe1da7b1p+6; 0x1.0990a3d70a3d7p+5; 0x1.54b12018a43bbp+6; 0x1.b691e42e12620p+5];
  [0x1.98ca3dff3f0fep+9; 0x1.15736bf444e0ep+7; 0x1.170f5c0767d35p+7; 0x1.b100000000000p+6; 0x1.a7b0a400fba88p+9; 0x1.ca52999567dbbp+4; 0x1.b947ae147ae14p+3; 0x1.10c65e02ea961p+6; 0x1.6b1fa00e27e0fp+4; 0x1.07396e158750cp+5; 0x1.385c8216c6152p+5; 0x1.2fae147ae147bp+4; 0x1.06147ae147ae1p+3; 0x1.3b1847f562175p+6; 0x1.b1b6c7a7c9de0p+4; 0x1.5c96640a6b93dp+5; 0x1.bab202107b784p+6; 0x1.082da22f6a50dp+5; 0x1.54259ff4fd6d8p+6; 0x1.b64189bd8383bp+5];
  [0x1.97370a02b8412p+9; 0x1.14e649f51697fp+7; 0x1.18ae13f4a98abp+7; 0x1.b028f605ab3abp+6; 0x1.a6ce13fd0d068p+9; 0x1.cbdeb851eb852p+4; 0x1.b666666666666p+3; 0x1.0fcc7c0f45176p+6; 0x1.6be91a75cd0bbp+4; 0x1.0987820a30db7p+5; 0x1.38961c36976bcp+5; 0x1.3a8f5c28f5c29p+4; 0x1.1000000000000p+3; 0x1.38ab7bf1e8e61p+6; 0x1.b8e1ac57e23f2p+4; 0x1.5e6261bf37b8dp+5; 0x1.bc33e5fb71fbcp+6; 0x1.05f1a9fbe76c9p+5; 0x1.53c1fc08fa7a8p+6; 0x1.bdca05dd8f92bp+5];
  [0x1.99c14801f7510p+9; 0x1.155f41f212d77p+7; 0x1.18a3d7f51efb7p+7; 0x1.b051ec0b56755p+6; 0x1.a768f5fd47beep+9; 0x1.c78995aaf78ffp+4; 0x1.b666666666666p+3; 0x1.0ffe75ff609ddp+6; 0x1.6a7e73a365cb3p+4; 0x1.0aae87d2c7b89p+5; 0x1.37295421c0443p+5; 0x1.3dc29068986fdp+4; 0x1.2dc28f5c28f5cp+3; 0x1.38bf301eabbcbp+6; 0x1.bb1c842fa5094p+4; 0x1.68ee581cf7879p+5; 0x1.bc0b480a5accdp+6; 0x1.0754ac29bf163p+5; 0x1.53902c0a4a05ep+6; 0x1.c115bbbe878fbp+5];
  [0x1.9a75c200c0f02p+9; 0x1.1b1f060bb2bbbp+7; 0x1.1b851e108c3f4p+7; 0x1.af3333fc86cecp+6; 0x1.ac00000000000p+9; 0x1.ca52999567dbbp+4; 0x1.b6147ae147ae1p+3; 0x1.12922e1ac57e2p+6; 0x1.7193b3a68b19ap+4; 0x1.113661f18c9fbp+5; 0x1.37afb5d031056p+5; 0x1.3e8f5c28f5c29p+4; 0x1.699999999999ap+3; 0x1.3b0491f2dc2b1p+6; 0x1.baa2339c0ebeep+4; 0x1.6ef2502eec7c9p+5; 0x1.be257de0d66f1p+6; 0x1.072d39da16617p+5; 0x1.58db4bf8fcd68p+6; 0x1.c206cc1ca3a4bp+5];
  [0x1.9fb479fec99f2p+9; 0x1.1bc04dfce3151p+7; 0x1.1d4ccc0379314p+7; 0x1.b60a3df6db941p+6; 0x1.b528f5fd47beep+9; 0x1.cb4046412cf10p+4; 0x1.b6b851eb851ecp+3; 0x1.1435fe1112770p+6; 0x1.6f87de5082cf5p+4; 0x1.110f0bf1a5ca3p+5; 0x1.36dc842fa5094p+5; 0x1.49eb862b27cbfp+4; 0x1.7000000000000p+3; 0x1.3bb5f202107b8p+6; 0x1.cd1c1c6088d6dp+4; 0x1.753247cb70ac4p+5; 0x1.bc8523f67f4dcp+6; 0x1.087c85c24c405p+5; 0x1.57927bf61aa3fp+6; 0x1.c3847a17f4129p+5];
  [0x1.9fc0000000000p+9; 0x1.1b608a04d1202p+7; 0x1.1cd1ec0b56755p+7; 0x1.b36665e02ea96p+6; 0x1.b62b86013660ep+9; 0x1.ce30e7ff583a5p+4; 0x1.c19999999999ap+3; 0x1.1787a41e57d9ep+6; 0x1.77b7318fc5048p+4; 0x1.100f5a1016ce8p+5; 0x1.392fb00bcbe62p+5; 0x1.4170a3d70a3d7p+4; 0x1.7800000000000p+3; 0x1.422d65e460675p+6; 0x1.c7b1c219eb639p+4; 0x1.7b9a41e57d9dcp+5; 0x1.bef099e0e7360p+6; 0x1.08a3f5f91600fp+5; 0x1.5a87c5ef62f9dp+6; 0x1.c861f212d7732p+5];
  [0x1.9ec7ae03b3e9ap+9; 0x1.1ad873ffac1d3p+7; 0x1.1c1999fe43676p+7; 0x1.af51ec0b56755p+6; 0x1.bb451dffc547ap+9; 0x1.cd1b9c7368ad7p+4; 0x1.d19999999999ap+3; 0x1.19716df3f9618p+6; 0x1.734ef240fa9c1p+4; 0x1.0fad01c0ca601p+5; 0x1.379c842fa5094p+5; 0x1.3c7ae2541d8e8p+4; 0x1.6fae147ae147bp+3; 0x1.3bac1615ebfa9p+6; 0x1.cf7fbdf090f73p+4; 0x1.7ffa3c21187e8p+5; 0x1.be257de0d66f1p+6; 0x1.078fd7e45803dp+5; 0x1.55e604189374cp+6; 0x1.ca2ffc115df65p+5];
  [0x1.a3466601bc98ap+9; 0x1.1aec9e01de269p+7; 0x1.1c8f5c0767d35p+7; 0x1.b05c27e953155p+6; 0x1.bdc14801f7510p+9; 0x1.ce5881a1554fcp+4; 0x1.d47ae147ae148p+3; 0x1.18778c0053e2dp+6; 0x1.734ef240fa9c1p+4; 0x1.06886bdf4c2b5p+5; 0x1.37c2ea0fd3b2ap+5; 0x1.3a66666666666p+4; 0x1.7851eb851eb85p+3; 0x1.3be736049ecb3p+6; 0x1.c70ea7ce0fc2fp+4; 0x1.7b22403148777p+5; 0x1.bd3bedfa43fe6p+6; 0x1.07cb042528ae7p+5; 0x1.54a729f59ccfbp+6; 0x1.ca946c332f017p+5];
  [0x1.a148f5fd47beep+9; 0x1.1d07ee0b0af60p+7; 0x1.1b75c209246bfp+7; 0x1.ae147a17f4129p+6; 0x1.c56a3dff3f0fep+9; 0x1.d083137b07076p+4; 0x1.c51eb851eb852p+3; 0x1.192b780346dc6p+6; 0x1.70f28848387dfp+4; 0x1.074d17c5ef630p+5; 0x1.38a94dd72367ep+5; 0x1.34f5c182ecaefp+4; 0x1.6b851eb851eb8p+3; 0x1.3d0ed41b75a75p+6; 0x1.da02e9899bf59p+4; 0x1.7c123fee2c98ep+5; 0x1.bca399f5dfeb9p+6; 0x1.08904039abf34p+5; 0x1.55c9c7ffde721p+6; 0x1.c9a35bd512ec7p+5];
  [0x1.9fb479fec99f2p+9; 0x1.1b8de80bed741p+7; 0x1.1bb333fc86cecp+7; 0x1.adc28fe260b2dp+6; 0x1.c6a3d7fd82774p+9; 0x1.cfbd017dae819p+4; 0x1.c570a3d70a3d7p+3; 0x1.17c39c0ebedfap+6; 0x1.6cb291b823c86p+4; 0x1.053a09cc319c6p+5; 0x1.374fb5d031056p+5; 0x1.39eb862b27cbfp+4; 0x1.6c7ae147ae148p+3; 0x1.3dac7ffde7211p+6; 0x1.d447000431bdfp+4; 0x1.76c2480e8c8acp+5; 0x1.bd6f1bef49cf5p+6; 0x1.0768661ae70c1p+5; 0x1.516763e4abe6ap+6; 0x1.c8da7e3087875p+5];
  [0x1.9df0a400fba88p+9; 0x1.1ad873ffac1d3p+7; 0x1.1a5709fa54c55p+7; 0x1.b028f605ab3abp+6; 0x1.c123d7fd82774p+9; 0x1.cf1e939eadd59p+4; 0x1.a8a3d70a3d70ap+3; 0x1.16e7b5f1bef4ap+6; 0x1.6e1d3996fa82fp+4; 0x1.0674bdfd2630fp+5; 0x1.341fb82c2bd7fp+5; 0x1.4451eb851eb85p+4; 0x1.74ccccccccccdp+3; 0x1.3f857c0b13598p+6; 0x1.dc3dc26dce39bp+4; 0x1.76ea47ecfe9b8p+5; 0x1.bedd67fd3f5b6p+6; 0x1.06caa00192a73p+5; 0x1.528a01eeed890p+6; 0x1.c67fd60e94ee4p+5];
  [0x1.9c55c200c0f02p+9; 0x1.1a3729f59ccfbp+7; 0x1.198f5c0767d35p+7; 0x1.b3f5c209246bfp+6; 0x1.bf70a400fba88p+9; 0x1.d00c3c18b502bp+4; 0x1.b0a3d70a3d70ap+3; 0x1.1ca513f8db489p+6; 0x1.6c8a45d41fa76p+4; 0x1.02ffa5d28d003p+5; 0x1.340c4a4095f24p+5; 0x1.3dc29068986fdp+4; 0x1.6ae147ae147aep+3; 0x1.3e8f21f6cacd2p+6; 0x1.d5646e08f2171p+4; 0x1.78b6440f23897p+5; 0x1.be1c1615ebfa9p+6; 0x1.06b6e3f78bbd4p+5; 0x1.515d5bee3d5fep+6; 0x1.c748b7e4de3b9p+5];
  [0x1.9c5d6ffc115dfp+9; 0x1.19e17bfa4c61ep+7; 0x1.1a1479f666235p+7; 0x1.becccc0379314p+6; 0x1.c5851dffc547ap+9; 0x1.d05b77c02afdep+4; 0x1.a333333333333p+3; 0x1.1d4503fb37436p+6; 0x1.6a5627bf61aa4p+4; 0x1.04ff0a1be2b49p+5; 0x1.32744c37e6f72p+5; 0x1.3bae147ae147bp+4; 0x1.7d70a3d70a3d7p+3; 0x1.3ffbba12b5e53p+6; 0x1.dbec36544fe37p+4; 0x1.7b4a4228997c4p+5; 0x1.be6d7be9856a3p+6; 0x1.064091c087443p+5; 0x1.5030b5ed8d36bp+6; 0x1.c6bc182ecaeeap+5];
  [0x1.9baccc0379314p+9; 0x1.16d94a0a0f4d8p+7; 0x1.17d709fa54c55p+7; 0x1.b9c28fe260b2dp+6; 0x1.c32e13fd0d068p+9; 0x1.d0d24bfd2e947p+4; 0x1.a333333333333p+3; 0x1.1eb6dc1a47a9ep+6; 0x1.68c333fc86cecp+4; 0x1.049cb039ef0f1p+5; 0x1.31ec4a4095f24p+5; 0x1.36b851eb851ecp+4; 0x1.a7ae147ae147bp+3; 0x1.3eddf61240746p+6; 0x1.d447000431bdfp+4; 0x1.7c123fee2c98ep+5; 0x1.bd97ce0fc2ebap+6; 0x1.05679a2834d27p+5; 0x1.4f9a63f9a49c3p+6; 0x1.c62f7c243dccfp+5];
  [0x1.9c28f5fd47beep+9; 0x1.172ef60e0eb68p+7; 0x1.1728f605ab3abp+7; 0x1.ba851deefe500p+6; 0x1.c01d6ffc115dfp+9; 0x1.cca4c61d8622cp+4; 0x1.9851eb851eb85p+3; 0x1.1ec0dbf0563edp+6; 0x1.64833f85510d4p+4; 0x1.04c407cc7d1bbp+5; 0x1.33d204295a6c6p+5; 0x1.347ae2541d8e8p+4; 0x1.ab33333333333p+3; 0x1.3f5e100607810p+6; 0x1.c694562e09fe8p+4; 0x1.79ce4217d284ap+5; 0x1.bb0c9de050375p+6; 0x1.0553e3e29307bp+5; 0x1.4e4fadf2ecf20p+6; 0x1.c3d4d4024b33ep+5];
  [0x1.9bc7ae03b3e9ap+9; 0x1.15b4f3fd933e3p+7; 0x1.16c7adf2ecf20p+7; 0x1.b8d709fa54c55p+6; 0x1.ba55c200c0f02p+9; 0x1.c964edf612407p+4; 0x1.89eb851eb851fp+3; 0x1.1d9efbf401c50p+6; 0x1.5fa21d96e9bbfp+4; 0x1.008a3df6db941p+5; 0x1.31b202107b784p+5; 0x1.3428f5c28f5c3p+4; 0x1.a147ae147ae14p+3; 0x1.3a70c4156e265p+6; 0x1.ba50a67620ee9p+4; 0x1.791a43fe5c91dp+5; 0x1.ba0e39f77292cp+6; 0x1.0504fe36d2242p+5; 0x1.4a6589efd86a9p+6; 0x1.c34835dedf1e1p+5];
  [0x1.a295c200c0f02p+9; 0x1.173e160d887ecp+7; 0x1.1ad709fa54c55p+7; 0x1.bf0a3df6db941p+6; 0x1.c2feb7fe08af0p+9; 0x1.caa1d4306e5cdp+4; 0x1.9947ae147ae14p+3; 0x1.1ef2d5e071c54p+6; 0x1.6707f455a7d24p+4; 0x1.04755bccaf70ap+5; 0x1.31d8dde7a743ap+5; 0x1.335c27e953155p+4; 0x1.af0a3d70a3d71p+3; 0x1.3a045fe111277p+6; 0x1.bbe86833c6003p+4; 0x1.79ce4217d284ap+5; 0x1.bfd19c17225b7p+6; 0x1.05f1a9fbe76c9p+5; 0x1.501cac083126fp+6; 0x1.c7c13fd0d0679p+5];
  [0x1.a268f5fd47beep+9; 0x1.16008bfc2224fp+7; 0x1.19eb860999dcbp+7; 0x1.bceb85e80bed7p+6; 0x1.c3e3d7fd82774p+9; 0x1.cdba0f9096bbap+4; 0x1.9e66666666666p+3; 0x1.2082aa19439dep+6; 0x1.657503b81b64ep+4; 0x1.02d84fd2a62aap+5; 0x1.3177b9e060fe4p+5; 0x1.319999999999ap+4; 0x1.bfae147ae147bp+3; 0x1.37fa1dfb9389bp+6; 0x1.b4bd8383ad9f1p+4; 0x1.7b0e3ffef3908p+5; 0x1.bf38f9f44d445p+6; 0x1.04b61a1db877bp+5; 0x1.4d5f2a172abefp+6; 0x1.c9dfa00e27e0fp+5];
  [0x1.a31ae2003ab86p+9; 0x1.14fa73f748a16p+7; 0x1.1c8a3df6db941p+7; 0x1.bb0a3df6db941p+6; 0x1.c19999fe43676p+9; 0x1.d033dc054ef46p+4; 0x1.9ae147ae147aep+3; 0x1.2136940357a35p+6; 0x1.65ede657b84dcp+4; 0x1.039cffeb074a7p+5; 0x1.3177b9e060fe4p+5; 0x1.330a3e7d13511p+4; 0x1.beb851eb851ecp+3; 0x1.35d249e44fa05p+6; 0x1.b3774ff865d7dp+4; 0x1.81c639d5e4a38p+5; 0x1.be4ef5ec80c74p+6; 0x1.02f079e59f2bbp+5; 0x1.4aa1a7e308787p+6; 0x1.cf49be09bb6aap+5];
  [0x1.a4d333fc86cecp+9; 0x1.18718bf7f0670p+7; 0x1.1f9999fe43676p+7; 0x1.c3d709fa54c55p+6; 0x1.c307ae03b3e9ap+9; 0x1.d4615db3397ddp+4; 0x1.a3851eb851eb8p+3; 0x1.24104816f0069p+6; 0x1.6b1fa00e27e0fp+4; 0x1.05febbfd71b04p+5; 0x1.324d71f36262dp+5; 0x1.363d6f9767903p+4; 0x1.b47ae147ae148p+3; 0x1.37d2b020c49bap+6; 0x1.b7c4406c00da2p+4; 0x1.8ac22dd7a99fap+5; 0x1.c77333fc86cecp+6; 0x1.03f0e23af31b1p+5; 0x1.4ee601ffb480ap+6; 0x1.d772ebe596c83p+5];
  [0x1.a59851fc4c166p+9; 0x1.181bdc054ef46p+7; 0x1.1f5c280ae1049p+7; 0x1.c470a41a261bfp+6; 0x1.c143d7fd82774p+9; 0x1.c93d50225742ep+4; 0x1.a000000000000p+3; 0x1.249c37e6f71a8p+6; 0x1.657503b81b64ep+4; 0x1.034e51d25aab4p+5; 0x1.2f0a03c4b09eap+5; 0x1.2fd70a3d70a3dp+4; 0x1.ac7ae147ae148p+3; 0x1.36975e2046c76p+6; 0x1.b58964628027ep+4; 0x1.8b9e2de870974p+5; 0x1.c62d9a0f0a5f0p+6; 0x1.032ba40d90e24p+5; 0x1.4addca07f66e8p+6; 0x1.db9b9bed30f06p+5];
  [0x1.af614801f7510p+9; 0x1.1ace5e02ea961p+7; 0x1.22f0a3f8982cbp+7; 0x1.cb70a41a261bfp+6; 0x1.c5b479fec99f2p+9; 0x1.c93d50225742ep+4; 0x1.a428f5c28f5c3p+3; 0x1.23fc49fd7a13cp+6; 0x1.73f01d9f4d37cp+4; 0x1.048903ea704bcp+5; 0x1.2fb8dde7a743ap+5; 0x1.370a3e7d13511p+4; 0x1.8e66666666666p+3; 0x1.38353c148344cp+6; 0x1.b1b6c7a7c9de0p+4; 0x1.8f9a2be0589adp+5; 0x1.cbdc9ff92f2b6p+6; 0x1.03f0e23af31b1p+5; 0x1.568831f03d146p+6; 0x1.df8806290eed0p+5];
  [0x1.b4266601bc98ap+9; 0x1.1c8ef3f52fc26p+7; 0x1.24fae1ef73c0cp+7; 0x1.cdeb85e80bed7p+6; 0x1.c5cf5bff04578p+9; 0x1.c7b1337eb28d8p+4; 0x1.afae147ae147bp+3; 0x1.250a2df9378eep+6; 0x1.79726e115592ep+4; 0x1.0526601bc98a2p+5; 0x1.2f1d701d9f4d3p+5; 0x1.387ae2541d8e8p+4; 0x1.68f5c28f5c28fp+3; 0x1.3a98301a79fedp+6; 0x1.b6f85e80bed74p+4; 0x1.9472220bc382ap+5; 0x1.cd9225fa658c5p+6; 0x1.041851eb851ecp+5; 0x1.5981d60631727p+6; 0x1.de5ab21815a08p+5];
  [0x1.b3dd6ffc115dfp+9; 0x1.1ae288051c9f7p+7; 0x1.251eb80ecfa6ap+7; 0x1.cbe147f130596p+6; 0x1.c6a51dffc547ap+9; 0x1.c4c091c087443p+4; 0x1.ad1eb851eb852p+3; 0x1.268601ffb480ap+6; 0x1.7807c84b5dcc6p+4; 0x1.082575c0767d3p+5; 0x1.32e8dc11e42e1p+5; 0x1.3b5c27e953155p+4; 0x1.5a8f5c28f5c29p+3; 0x1.3952fdfc19c17p+6; 0x1.b7c4406c00da2p+4; 0x1.98321dda059a7p+5; 0x1.cdbad81adea89p+6; 0x1.04c9d1f601798p+5; 0x1.5a2c31df761ccp+6; 0x1.e31000431bde8p+5];
  [0x1.b520000000000p+9; 0x1.1b19f9f01b867p+7; 0x1.27666601bc98ap+7; 0x1.cdb851eb851ecp+6; 0x1.cb30a400fba88p+9; 0x1.c1f78feef5ec8p+4; 0x1.b3d70a3d70a3dp+3; 0x1.26900218def41p+6; 0x1.7440b45ae5ffap+4; 0x1.096029f16b11cp+5; 0x1.2ee327ed84d34p+5; 0x1.5ab851eb851ecp+4; 0x1.4eb851eb851ecp+3; 0x1.38c90c0ad03dap+6; 0x1.b3a0157eed45fp+4; 0x1.98fa1e3eaf683p+5; 0x1.d16d1e108c3f4p+6; 0x1.04dd8be7296f6p+5; 0x1.56f670196d8f5p+6; 0x1.e105b4245f5aep+5];
  [0x1.c4fae2003ab86p+9; 0x1.1ad369fcf3dc0p+7; 0x1.2c80000000000p+7; 0x1.ce00000000000p+6; 0x1.ce7eb7fe08af0p+9; 0x1.c0930be0ded29p+4; 0x1.a99999999999ap+3; 0x1.258c1df3300dep+6; 0x1.6f5f9591cd1c8p+4; 0x1.0a24d7f0ed3d8p+5; 0x1.2cc327ed84d34p+5; 0x1.57d70a3d70a3dp+4; 0x1.470a3d70a3d71p+3; 0x1.3a4959e625636p+6; 0x1.a5ed6ba8c5868p+4; 0x1.94c223e186983p+5; 0x1.ce537c1376d55p+6; 0x1.0553e3e29307bp+5; 0x1.5493201040bfep+6; 0x1.d74abde3fbbd8p+5];
  [0x1.c848f5fd47beep+9; 0x1.209836006d0d5p+7; 0x1.30eb860999dcbp+7; 0x1.d2b851eb851ecp+6; 0x1.da1d6ffc115dfp+9; 0x1.bfccfe154434ep+4; 0x1.b3d70a3d70a3dp+3; 0x1.25be17e34b945p+6; 0x1.739f8a0902de0p+4; 0x1.06c36e2eb1c43p+5; 0x1.28bd72367e415p+5; 0x1.52b851eb851ecp+4; 0x1.470a3d70a3d71p+3; 0x1.3bdd5bee3d5fep+6; 0x1.a690880d801b4p+4; 0x1.920623d0bfa09p+5; 0x1.ce865bea0ba1fp+6; 0x1.043fc43b2dd37p+5; 0x1.54cf401c4fc1ep+6; 0x1.d83bce4217d28p+5];
  [0x1.ca3851fc4c166p+9; 0x1.226cf3fd933e3p+7; 0x1.318f5c0767d35p+7; 0x1.d85c27e953155p+6; 0x1.d97851fc4c166p+9; 0x1.c0930be0ded29p+4; 0x1.4a3d70a3d70a4p+3; 0x1.26dff7dfa00e2p+6; 0x1.725d2e0e30447p+4; 0x1.fe291212513b6p+4; 0x1.279a0620ab713p+5; 0x1.50cccbc05d52cp+4; 0x1.56b851eb851ecp+3; 0x1.3bd3821af7d31p+6; 0x1.a690880d801b4p+4; 0x1.926a222d5171ep+5; 0x1.d57afc04c8bcap+6; 0x1.02f079e59f2bbp+5; 0x1.529e0ded288cep+6; 0x1.dabea3df6db94p+5];
  [0x1.cf851dffc547ap+9; 0x1.218a25fa658c5p+7; 0x1.2f9999fe43676p+7; 0x1.d247ae147ae14p+6; 0x1.d683d7fd82774p+9; 0x1.c449ba5e353f8p+4; 0x1.4c7ae147ae148p+3; 0x1.27cfe004b7f5ap+6; 0x1.76243fe5c91d1p+4; 0x1.013b41bfbdf09p+5; 0x1.236d7625204b0p+5; 0x1.4570a3d70a3d7p+4; 0x1.4dc28f5c28f5cp+3; 0x1.3e53ffef39086p+6; 0x1.9e70fe047d3d4p+4; 0x1.938223e186983p+5; 0x1.d257281fd9ba2p+6; 0x1.01dc5bd0e12e8p+5; 0x1.5493201040bfep+6; 0x1.db736bd2b6f1ap+5];
  [0x1.d1d479fec99f2p+9; 0x1.207f01fb82c2cp+7; 0x1.2db333fc86cecp+7; 0x1.cf70a41a261bfp+6; 0x1.d4c3d7fd82774p+9; 0x1.c3d2e62131a8fp+4; 0x1.4333333333333p+3; 0x1.2a139ffd60e95p+6; 0x1.77669be09bb6bp+4; 0x1.fd64628027d89p+4; 0x1.2077bbf93ff26p+5; 0x1.46b851eb851ecp+4; 0x1.4c28f5c28f5c3p+3; 0x1.3a3f7dfa00e28p+6; 0x1.95ae5bc87db2bp+4; 0x1.8d6a2c2374795p+5; 0x1.d4af7a0b5ed8dp+6; 0x1.01b4ea077036dp+5; 0x1.54f755ffe6d59p+6; 0x1.dd558c08b75eap+5];
  [0x1.cf90a400fba88p+9; 0x1.2547cbf6e3f79p+7; 0x1.2c7ae1ef73c0cp+7; 0x1.d028f605ab3abp+6; 0x1.d31333fc86cecp+9; 0x1.c4221fafc8b00p+4; 0x1.46147ae147ae1p+3; 0x1.2ab38de6ddf01p+6; 0x1.75ab5c39bcba3p+4; 0x1.0375a9eb2074fp+5; 0x1.24a450268900cp+5; 0x1.4970a3d70a3d7p+4; 0x1.5851eb851eb85p+3; 0x1.3bb5f202107b8p+6; 0x1.a1a07e5a78f26p+4; 0x1.934623d0bfa09p+5; 0x1.d3041fea8112cp+6; 0x1.01f0142f61ed6p+5; 0x1.5493201040bfep+6; 0x1.de469df97aaacp+5];
  [0x1.d3266601bc98ap+9; 0x1.2d411c087442cp+7; 0x1.2e1eb80ecfa6ap+7; 0x1.d370a41a261bfp+6; 0x1.da851dffc547ap+9; 0x1.c1cff0025bfadp+4; 0x1.4147ae147ae14p+3; 0x1.2937b80a9de8bp+6; 0x1.7921d6494d50fp+4; 0x1.04ff0a1be2b49p+5; 0x1.24b7bbf93ff26p+5; 0x1.487ae2541d8e8p+4; 0x1.519999999999ap+3; 0x1.3f0f3a14cec42p+6; 0x1.9b417fc7607c4p+4; 0x1.945e21d96e9bcp+5; 0x1.cf7a8deb0fadfp+6; 0x1.01b4ea077036dp+5; 0x1.54f755ffe6d59p+6; 0x1.de3284167a95dp+5];
  [0x1.d215c200c0f02p+9; 0x1.2f2f0e0a84be4p+7; 0x1.2cf5c209246bfp+7; 0x1.e000000000000p+6; 0x1.dc68f5fd47beep+9; 0x1.bfa55e28aa433p+4; 0x1.45c28f5c28f5cp+3; 0x1.2b8f77f27fe4cp+6; 0x1.79726e115592ep+4; 0x1.07396e158750cp+5; 0x1.220fbc1acde1ap+5; 0x1.563d6f9767903p+4; 0x1.50a3d70a3d70ap+3; 0x1.3cd3b213e3e29p+6; 0x1.9044007570c56p+4; 0x1.94d62413db7f1p+5; 0x1.ceaf0fe047d3dp+6; 0x1.012ad81adea89p+5; 0x1.53989613d31bap+6; 0x1.e07b7bf1e8e61p+5];
  [0x1.d063d7fd82774p+9; 0x1.2dbf1bef49cf5p+7; 0x1.2c9479f666235p+7; 0x1.dfeb85e80bed7p+6; 0x1.da7999fe43676p+9; 0x1.bc164c729f59dp+4; 0x1.5947ae147ae14p+3; 0x1.2d7c8605681edp+6; 0x1.7c1f6fd21ff2ep+4; 0x1.06fe6ddf00abfp+5; 0x1.23ce9a2c66905p+5; 0x1.52e147ae147aep+4; 0x1.67ae147ae147bp+3; 0x1.3e43bff8a8f3bp+6; 0x1.95ffe5c91d14ep+4; 0x1.963e1fc08fa7bp+5; 0x1.cfa341e14bdfdp+6; 0x1.00ef1c3265adep+5; 0x1.56420e1f7d73dp+6; 0x1.ddf601ffb480ap+5];
  [0x1.d14ccc0379314p+9; 0x1.305b2a0663c75p+7; 0x1.2c1479f666235p+7; 0x1.e0a3d816aceabp+6; 0x1.d9cf5bff04578p+9; 0x1.beb7b5aea3162p+4; 0x1.623d70a3d70a4p+3; 0x1.2b3ef5ec80c74p+6; 0x1.7add15f02c4d6p+4; 0x1.06126634117f8p+5; 0x1.23bb2c40d0aaap+5; 0x1.4fd70a3d70a3dp+4; 0x1.451eb851eb852p+3; 0x1.40fc07ee0b0afp+6; 0x1.95340a2877ee5p+4; 0x1.960221c8a7a42p+5; 0x1.cf2923e5b8562p+6; 0x1.010305d95dd4cp+5; 0x1.553377e1b8ed2p+6; 0x1.dae35610adcd3p+5];
  [0x1.d21c28027d88cp+9; 0x1.349b4df04ddb5p+7; 0x1.2ca8f605ab3abp+7; 0x1.e15c27e953155p+6; 0x1.e0accc0379314p+9; 0x1.b56efe4ffc979p+4; 0x1.6851eb851eb85p+3; 0x1.2998561d4306ep+6; 0x1.79c305d95dd4cp+4; 0x1.024e9ff0cbaf9p+5; 0x1.241c4fc1df330p+5; 0x1.4947ae147ae14p+4; 0x1.2fae147ae147bp+3; 0x1.40c059ea57215p+6; 0x1.97e935b91f70ep+4; 0x1.8f4a2a0a95853p+5; 0x1.d18ba5e353f7dp+6; 0x1.00c747d805e5fp+5; 0x1.5442f405f6ba0p+6; 0x1.d83585be1a826p+5];
  [0x1.d48a3dff3f0fep+9; 0x1.33d0d9f9053a0p+7; 0x1.2c6147f130596p+7; 0x1.e5999a1fd156ap+6; 0x1.defc28027d88cp+9; 0x1.b40a7c5ac471bp+4; 0x1.6d70a3d70a3d7p+3; 0x1.2bdff609dcf89p+6; 0x1.7ab4ca0c282c7p+4; 0x1.03d8023a6ce36p+5; 0x1.24de97d06bbdcp+5; 0x1.44a3d816aceabp+4; 0x1.09eb851eb851fp+3; 0x1.41b9081c2e33fp+6; 0x1.934aba3875925p+4; 0x1.8fae29f9ce8d9p+5; 0x1.d5d68dfbd6a59p+6; 0x1.01a2541d8e864p+5; 0x1.55e7da1ec4e72p+6; 0x1.dc4e6c093d966p+5];
  [0x1.d780000000000p+9; 0x1.335c74107314dp+7; 0x1.2b8f5c0767d35p+7; 0x1.f0147a17f4129p+6; 0x1.e308f5fd47beep+9; 0x1.b1dfeb8d82342p+4; 0x1.9800000000000p+3; 0x1.273c92146a1a5p+6; 0x1.799ab9f559b3dp+4; 0x1.00c53e2d6238ep+5; 0x1.21d571d1d4739p+5; 0x1.37ae147ae147bp+4; 0x1.0a3d70a3d70a4p+3; 0x1.40c059ea57215p+6; 0x1.90be52157689dp+4; 0x1.94d62413db7f1p+5; 0x1.d6f373f316e37p+6; 0x1.fb2da22f6a50dp+4; 0x1.56f670196d8f5p+6; 0x1.d89a5fc7e6b40p+5];
  [0x1.cbcf5bff04578p+9; 0x1.290a93f290abbp+7; 0x1.21b333fc86cecp+7; 0x1.e2e147f130596p+6; 0x1.d8614801f7510p+9; 0x1.a8205bc01a36ep+4; 0x1.6666666666666p+3; 0x1.2746a1e81cb47p+6; 0x1.6340e5a35d67cp+4; 0x1.f22cba732df50p+4; 0x1.1c4b2bfdb4cc2p+5; 0x1.2f0a3e7d13511p+4; 0x1.fd70a3d70a3d7p+2; 0x1.3e9351deefe50p+6; 0x1.8e5ab191dde37p+4; 0x1.8b622dd7a99fap+5; 0x1.d03be1eb4202ep+6; 0x1.f56c03ff69015p+4; 0x1.49e3400b88ca4p+6; 0x1.d6a217d2849cbp+5];
  [0x1.d11eb7fe08af0p+9; 0x1.2d918def416bep+7; 0x1.2751ec0b56755p+7; 0x1.e5147a17f4129p+6; 0x1.df3eb7fe08af0p+9; 0x1.a935a426bb55bp+4; 0x1.68f5c28f5c28fp+3; 0x1.30c9cbee807bcp+6; 0x1.65ede657b84dcp+4; 0x1.f2f16e3715400p+4; 0x1.20032a0663c75p+5; 0x1.2e3d6f9767903p+4; 0x1.ee147ae147ae1p+2; 0x1.3da497fa5d28dp+6; 0x1.8a0dc65c70436p+4; 0x1.8b8a2e3c536d6p+5; 0x1.ce0213e3e2930p+6; 0x1.f54433d6c7219p+4; 0x1.48ac96030c240p+6; 0x1.d757a02fb5d03p+5];
  [0x1.d3014801f7510p+9; 0x1.2e98b9fdbd2fap+7; 0x1.281eb80ecfa6ap+7; 0x1.ece147f130596p+6; 0x1.dfeb86013660ep+9; 0x1.b207863beec39p+4; 0x1.6d1eb851eb852p+3; 0x1.359f7dfa00e28p+6; 0x1.6acf08461f9f0p+4; 0x1.f6c8dc11e42e1p+4; 0x1.22369a0ad8a11p+5; 0x1.319999999999ap+4; 0x1.f5c28f5c28f5cp+2; 0x1.3e57a41e57d9ep+6; 0x1.96f48e4755ffep+4; 0x1.91022a2c23748p+5; 0x1.d355881a15550p+6; 0x1.f9000b88ca3e8p+4; 0x1.4be259e1f3a58p+6; 0x1.e379fc2a8869cp+5];
  [0x1.d6ee13fd0d068p+9; 0x1.306f6c050bd88p+7; 0x1.287ae1ef73c0cp+7; 0x1.f300000000000p+6; 0x1.e555c200c0f02p+9; 0x1.b40a7c5ac471bp+4; 0x1.6147ae147ae14p+3; 0x1.34c21ff2e48e9p+6; 0x1.6aa6be7afa722p+4; 0x1.f9db9d7fd8277p+4; 0x1.224a07f66e86cp+5; 0x1.347ae2541d8e8p+4; 0x1.f666666666666p+2; 0x1.3fbdba0a52696p+6; 0x1.9321f3a57eaa3p+4; 0x1.944a23bff8a8fp+5; 0x1.d8fa61e0c5a81p+6; 0x1.f3b5e84f09529p+4; 0x1.4b922c01e68a1p+6; 0x1.e273c1ce6c094p+5];
  [0x1.da68f5fd47beep+9; 0x1.300f3ffac1d2ap+7; 0x1.2823d7f51efb7p+7; 0x1.ebb851eb851ecp+6; 0x1.e5c51dffc547ap+9; 0x1.b5969a0ad8a11p+4; 0x1.5c7ae147ae148p+3; 0x1.3485bff04577ep+6; 0x1.70290de093533p+4; 0x1.fe77c45cbbc2cp+4; 0x1.22be97d06bbdcp+5; 0x1.37d70a3d70a3dp+4; 0x1.f1eb851eb851fp+2; 0x1.40de30014f8b6p+6; 0x1.8fa0e8427418dp+4; 0x1.92ba240314877p+5; 0x1.db5cdfefbf402p+6; 0x1.f4059210385c6p+4; 0x1.4fb876188b114p+6; 0x1.e1d2641b328b7p+5];
  [0x1.dd7ae2003ab86p+9; 0x1.2f266ff7dfa01p+7; 0x1.2c1479f666235p+7; 0x1.eb3d701d9f4d3p+6; 0x1.ea2ccc0379314p+9; 0x1.aea01040bfe3bp+4; 0x1.5c7ae147ae148p+3; 0x1.332f9df548ecep+6; 0x1.6fb02c4d65e46p+4; 0x1.fe291212513b6p+4; 0x1.2187bc3c5bd0ep+5; 0x1.38f5c182ecaefp+4; 0x1.de147ae147ae1p+2; 0x1.3fbdba0a52696p+6; 0x1.807f444e0daa1p+4; 0x1.89e62dc6e2a80p+5; 0x1.dfbc200c0f020p+6; 0x1.f29f202107b78p+4; 0x1.4f8657fb69985p+6; 0x1.e7a70e2c12ad8p+5];
  [0x1.e4c51dffc547ap+9; 0x1.3032ac1094a2cp+7; 0x1.2feb860999dcbp+7; 0x1.ee851deefe500p+6; 0x1.f0b0a400fba88p+9; 0x1.a95d3fe1975f3p+4; 0x1.5f5c28f5c28f6p+3; 0x1.33d09e12a51e3p+6; 0x1.6df4edb2f661fp+4; 0x1.f4f0cfe154435p+4; 0x1.22232c1f42bb6p+5; 0x1.37d70a3d70a3dp+4; 0x1.0f5c28f5c28f6p+3; 0x1.3da497fa5d28dp+6; 0x1.7aec2480e8c8bp+4; 0x1.de81cbccf28c8p+5; 0x1.e49579f234656p+6; 0x1.f455379fa97e1p+4; 0x1.4e1d91eeaa6d2p+6; 0x1.ef9c58255b036p+5];
  [0x1.e5bc28027d88cp+9; 0x1.2faf1800a7c5bp+7; 0x1.30429003eea21p+7; 0x1.eff5c209246bfp+6; 0x1.f1e3d7fd82774p+9; 0x1.a8becbb7f9d6fp+4; 0x1.6000000000000p+3; 0x1.331b7e0ac7da2p+6; 0x1.6dcca1cef2410p+4; 0x1.fc29ae4f33440p+4; 0x1.214d740c4156ep+5; 0x1.3b0a3e7d13511p+4; 0x1.f1eb851eb851fp+2; 0x1.3cdda61e0c5a8p+6; 0x1.8173e9a6f826fp+4; 0x1.ccb1e42e12620p+5; 0x1.e36e6601bc98ap+6; 0x1.f4059210385c6p+4; 0x1.4e27980f55de6p+6; 0x1.f2c32fcac8e69p+5];
  [0x1.e7f0a400fba88p+9; 0x1.2fcd7603925bbp+7; 0x1.30c29003eea21p+7; 0x1.efa3d816aceabp+6; 0x1.f25999fe43676p+9; 0x1.a75a4bdba0a52p+4; 0x1.63d70a3d70a3dp+3; 0x1.332f9df548ecep+6; 0x1.689aea3161a1ep+4; 0x1.019d9a0f0a5f0p+5; 0x1.2490e23af31b1p+5; 0x1.38f5c182ecaefp+4; 0x1.d8f5c28f5c28fp+2; 0x1.3b1e09fe86834p+6; 0x1.74b5e6362a5e8p+4; 0x1.cf1dde37585bep+5; 0x1.e382c01e68a0dp+6; 0x1.f3ddbfceb7889p+4; 0x1.487074213a0c7p+6; 0x1.f2727fe4bcadap+5];
  [0x1.e26e13fd0d068p+9; 0x1.2e00e7ff583a5p+7; 0x1.2eeb860999dcbp+7; 0x1.e9d709fa54c55p+6; 0x1.f14f5bff04578p+9; 0x1.a7a9845dc8323p+4; 0x1.66147ae147ae1p+3; 0x1.34f46fdeb52cap+6; 0x1.61e4c1ebc83a9p+4; 0x1.04b05e1c15098p+5; 0x1.246a03c4b09eap+5; 0x1.328f5c28f5c29p+4; 0x1.d8f5c28f5c28fp+2; 0x1.38c939eadd591p+6; 0x1.6f4b89d6adf72p+4; 0x1.cff9dc2f405f7p+5; 0x1.e866440f23897p+6; 0x1.fbf4c7f349386p+4; 0x1.4196b3fe9fadbp+6; 0x1.f5347e06961c3p+5];
  [0x1.e37999fe43676p+9; 0x1.2ed577fae3609p+7; 0x1.2f0f5c0767d35p+7; 0x1.efe147f130596p+6; 0x1.f1f999fe43676p+9; 0x1.acec5197a2489p+4; 0x1.5dc28f5c28f5cp+3; 0x1.39b604189374cp+6; 0x1.655e279dd3bb0p+4; 0x1.0887ce0fc2ebap+5; 0x1.26fe963dc486bp+5; 0x1.3b851dabe2718p+4; 0x1.e333333333333p+2; 0x1.3990281ba7fc3p+6; 0x1.7091be6e65387p+4; 0x1.d715d3dc8b86bp+5; 0x1.ea775e2046c76p+6; 0x1.fce3bbc6eb0b8p+4; 0x1.4526a619da9cap+6; 0x1.f64ee41919ac8p+5];
  [0x1.e7cccc0379314p+9; 0x1.335253fc00970p+7; 0x1.3338520d130e0p+7; 0x1.f0851deefe500p+6; 0x1.f75d6ffc115dfp+9; 0x1.af66202539757p+4; 0x1.5cccccccccccdp+3; 0x1.38f6d3f9e7b81p+6; 0x1.628679cc74b84p+4; 0x1.08af262888b54p+5; 0x1.26fe963dc486bp+5; 0x1.41c29068986fdp+4; 0x1.ccccccccccccdp+2; 0x1.34e68405b39e2p+6; 0x1.623bfa4c61d86p+4; 0x1.d229d9d3458cdp+5; 0x1.f19ede1198aecp+6; 0x1.fa3eac42e989ap+4; 0x1.4381bde82d7b6p+6; 0x1.fcc4e831ad213p+5];
  [0x1.ebd70a02b8412p+9; 0x1.30510c0ad03dap+7; 0x1.33429003eea21p+7; 0x1.f57ae21101b00p+6; 0x1.f9ab86013660ep+9; 0x1.b0f23bbc6eb0bp+4; 0x1.67ae147ae147bp+3; 0x1.3b7ad601ffb48p+6; 0x1.61e4c1ebc83a9p+4; 0x1.08c2cdc011d36p+5; 0x1.268a07f66e86cp+5; 0x1.447ae2541d8e8p+4; 0x1.b1eb851eb851fp+2; 0x1.374f3bea91d9bp+6; 0x1.5d74b838c111bp+4; 0x1.d0fddc1e7967dp+5; 0x1.f4671de69ad43p+6; 0x1.f749f1f14983dp+4; 0x1.441811f4f50a0p+6; 0x1.fa67c7c5260f6p+5];
  [0x1.e848f5fd47beep+9; 0x1.315837f7be122p+7; 0x1.319eb80ecfa6ap+7; 0x1.f27ae21101b00p+6; 0x1.f580000000000p+9; 0x1.b02c2df0d4131p+4; 0x1.80f5c28f5c28fp+3; 0x1.36407fed20297p+6; 0x1.5f0d1633482bfp+4; 0x1.0887ce0fc2ebap+5; 0x1.25ee9813879c4p+5; 0x1.43851dabe2718p+4; 0x1.a70a3d70a3d71p+2; 0x1.3b8b7414a4d2bp+6; 0x1.66da73b42cc2dp+4; 0x1.c941e603d5779p+5; 0x1.f1c78feef5ec8p+6; 0x1.f2eec7c957cd4p+4; 0x1.44c26fe718a87p+6; 0x1.f989e7fb267c7p+5];
  [0x1.ea7851fc4c166p+9; 0x1.3329d60631727p+7; 0x1.323d6ffc115dfp+7; 0x1.f68f5be5d9e41p+6; 0x1.f908f5fd47beep+9; 0x1.ac4de19fc2a88p+4; 0x1.8c28f5c28f5c3p+3; 0x1.371de1e2de871p+6; 0x1.64e4e054690dep+4; 0x1.0ac892253111fp+5; 0x1.2628dfbd6a594p+5; 0x1.48a3d816aceabp+4; 0x1.c147ae147ae14p+2; 0x1.3a610e0221427p+6; 0x1.6307dc37a3db4p+4; 0x1.cfe5de15ca6cap+5; 0x1.f194b1ee24357p+6; 0x1.f1d7fd82773e2p+4; 0x1.487a7c17a8933p+6; 0x1.f4569c23b7953p+5];
  [0x1.ebb479fec99f2p+9; 0x1.326985f06f694p+7; 0x1.356b860999dcbp+7; 0x1.1cae13f4a98abp+7; 0x1.f9229003eea21p+9; 0x1.aae95d91ab8e9p+4; 0x1.9cccccccccccdp+3; 0x1.36407fed20297p+6; 0x1.6abcab81f969ep+4; 0x1.08ff2239e6abap+5; 0x1.242fbc1acde1ap+5; 0x1.528f5c28f5c29p+4; 0x1.b99999999999ap+2; 0x1.394095f2452c6p+6; 0x1.617018611fd59p+4; 0x1.cdc9e01de2691p+5; 0x1.efdf2e05ccc8ap+6; 0x1.edf44c37e6f72p+4; 0x1.4c8cb5fe542e5p+6; 0x1.ea690bc7b45f1p+5];
  [0x1.daea3dff3f0fep+9; 0x1.2687d1fe64f55p+7; 0x1.2b3333fc86cecp+7; 0x1.16e147f130596p+7; 0x1.e927ae03b3e9ap+9; 0x1.b053c9abb01c9p+4; 0x1.88f5c28f5c28fp+3; 0x1.382d940789614p+6; 0x1.75ca8e2e2b8c7p+4; 0x1.0ac892253111fp+5; 0x1.26632a0663c75p+5; 0x1.5e1479d4d8341p+4; 0x1.c3d70a3d70a3dp+2; 0x1.3f1e93e1c9b41p+6; 0x1.710c100e6afcdp+4; 0x1.c621ea35935fcp+5; 0x1.e9090ff972474p+6; 0x1.fdd2b1b36bd2bp+4; 0x1.546b09e98dcdbp+6; 0x1.ea04302b40f67p+5];
  [0x1.d77333fc86cecp+9; 0x1.1f7e13f4a98abp+7; 0x1.28e147f130596p+7; 0x1.1628f605ab3abp+7; 0x1.e27479fec99f2p+9; 0x1.bfccfe154434ep+4; 0x1.82e147ae147aep+3; 0x1.377871e6cd291p+6; 0x1.77874213a0c6bp+4; 0x1.0d6cc3e3193f7p+5; 0x1.288327ed84d34p+5; 0x1.723d6f9767903p+4; 0x1.c1eb851eb851fp+2; 0x1.423a5614df8b1p+6; 0x1.7134d7add15f0p+4; 0x1.be3df2239e6acp+5; 0x1.dff92e1ef73c1p+6; 0x1.fcbbe878fabdap+4; 0x1.547f141205bc0p+6; 0x1.e2eccbc05d52cp+5];
  [0x1.dcb333fc86cecp+9; 0x1.21ce3800218dfp+7; 0x1.2d5c280ae1049p+7; 0x1.113333fc86cecp+7; 0x1.ea651dffc547ap+9; 0x1.b838023a6ce36p+4; 0x1.7eb851eb851ecp+3; 0x1.389233df2a9d6p+6; 0x1.775ed3953dea4p+4; 0x1.0c1aaa3ad18d2p+5; 0x1.258d71f36262dp+5; 0x1.6f33343fa2ad4p+4; 0x1.b666666666666p+2; 0x1.42582e019b0abp+6; 0x1.7da40d90e23afp+4; 0x1.c6a6b8305d95ep+5; 0x1.e62c7820a30dbp+6; 0x1.faddfb9389b52p+4; 0x1.55a1b3f20a73fp+6; 0x1.e0027418d690ap+5];
  [0x1.db614801f7510p+9; 0x1.1efa7e0ef9980p+7; 0x1.2c80000000000p+7; 0x1.115709fa54c55p+7; 0x1.e83c28027d88cp+9; 0x1.bbeeb1c432ca5p+4; 0x1.78a3d70a3d70ap+3; 0x1.3a1095f2452c6p+6; 0x1.773666234a87ep+4; 0x1.0ce18def416bep+5; 0x1.25db2c40d0aaap+5; 0x1.6b33343fa2ad4p+4; 0x1.c147ae147ae14p+2; 0x1.3ee2e40852b4ep+6; 0x1.718677b395c42p+4; 0x1.c3be4bcad9ad8p+5; 0x1.e6e39ffd60e95p+6; 0x1.fc941205bc01ap+4; 0x1.54ed51f81a587p+6; 0x1.dae35610adcd3p+5];
  [0x1.d727ae03b3e9ap+9; 0x1.1d422df9378eep+7; 0x1.2b9999fe43676p+7; 0x1.0e28f605ab3abp+7; 0x1.e215c200c0f02p+9; 0x1.c3940bbb1f256p+4; 0x1.7000000000000p+3; 0x1.362c621b7e0acp+6; 0x1.73bd017dae819p+4; 0x1.0ccda7f3cf701p+5; 0x1.26c44e0daa0cbp+5; 0x1.5b5c27e953155p+4; 0x1.b70a3d70a3d71p+2; 0x1.3f9fe3f359ff5p+6; 0x1.703ffbce4217dp+4; 0x1.bc6f33ca31e7ep+5; 0x1.e298b7e4de3b9p+6; 0x1.fe7204295a6c6p+4; 0x1.52e43419e3001p+6; 0x1.d97840181e03fp+5];
  [0x1.d5e3d7fd82774p+9; 0x1.1943d7f51efb7p+7; 0x1.2d47adf2ecf20p+7; 0x1.0dbd6ffc115dfp+7; 0x1.eddae2003ab86p+9; 0x1.c483ba3443d47p+4; 0x1.6e147ae147ae1p+3; 0x1.27bf61ed5ae1dp+6; 0x1.72004fb1183b6p+4; 0x1.0a651fc4c1659p+5; 0x1.27ad71f36262dp+5; 0x1.4fd70a3d70a3dp+4; 0x1.aae147ae147aep+2; 0x1.44675e2046c76p+6; 0x1.74b6ac647778ep+4; 0x1.b55c73eee5259p+5; 0x1.e4be2c12ad81bp+6; 0x1.0077a1c25d074p+5; 0x1.515d5bee3d5fep+6; 0x1.d9dd1c3ac929bp+5];
  [0x1.deaf5bff04578p+9; 0x1.214fb2031ceafp+7; 0x1.31bd6ffc115dfp+7; 0x1.16f0a3f8982cbp+7; 0x1.f195c200c0f02p+9; 0x1.c164cc6822ff1p+4; 0x1.7dc28f5c28f5cp+3; 0x1.28c5061416378p+6; 0x1.7994cb9ecf638p+4; 0x1.0adc73eee5259p+5; 0x1.274c4dec1c1d7p+5; 0x1.5051eb851eb85p+4; 0x1.97ae147ae147bp+2; 0x1.41913dfb0d520p+6; 0x1.61be3c105186ep+4; 0x1.b6761fe21d96fp+5; 0x1.e93bf01322f27p+6; 0x1.026979e16d6dcp+5; 0x1.58c36deb95e5bp+6; 0x1.dfda1e3eaf683p+5];
  [0x1.db50a400fba88p+9; 0x1.1eae940357a35p+7; 0x1.3080000000000p+7; 0x1.14c29003eea21p+7; 0x1.f04b86013660ep+9; 0x1.b6f068123810fp+4; 0x1.947ae147ae148p+3; 0x1.28ed441355476p+6; 0x1.72f2e05ccc89bp+4; 0x1.0b3fe5c91d14ep+5; 0x1.25669835158b8p+5; 0x1.47ae147ae147bp+4; 0x1.b333333333333p+2; 0x1.3fd1a005c4652p+6; 0x1.604ef240fa9c1p+4; 0x1.afb3dc054ef46p+5; 0x1.e89925fe974a3p+6; 0x1.050e89eba6acap+5; 0x1.569c3c18b502bp+6; 0x1.d7a8522ea0fd4p+5];
  [0x1.dfb999fe43676p+9; 0x1.2061d1f601798p+7; 0x1.33d1ec0b56755p+7; 0x1.1e9479f666235p+7; 0x1.f51d6ffc115dfp+9; 0x1.b17a4c61d8623p+4; 0x1.bf5c28f5c28f6p+3; 0x1.2bada61e0c5a8p+6; 0x1.6d437f7be121fp+4; 0x1.0926e9ff0cbb0p+5; 0x1.2187bc3c5bd0ep+5; 0x1.44f5c182ecaefp+4; 0x1.9b851eb851eb8p+2; 0x1.3c703e20ccff2p+6; 0x1.5247a17f4128cp+4; 0x1.b196b7ed41b76p+5; 0x1.e9461e0c5a815p+6; 0x1.078bc621b7e0bp+5; 0x1.550b641700cd8p+6; 0x1.d872064239607p+5];
  [0x1.de8b86013660ep+9; 0x1.1fe85c0336156p+7; 0x1.32cccc0379314p+7; 0x1.1c8a3df6db941p+7; 0x1.f4a66601bc98ap+9; 0x1.ade38a7e73a36p+4; 0x1.cc28f5c28f5c3p+3; 0x1.28d9220ff5409p+6; 0x1.6a1af7d30ad47p+4; 0x1.099e3c105186ep+5; 0x1.21269835158b8p+5; 0x1.4a66666666666p+4; 0x1.b47ae147ae148p+2; 0x1.3b0a261bf37b9p+6; 0x1.55a0a63305101p+4; 0x1.b1fb52007dd44p+5; 0x1.ea11a005c4652p+6; 0x1.08f23a29c779ap+5; 0x1.54a729f59ccfbp+6; 0x1.d4e6540cc78eap+5];
  [0x1.e2cb86013660ep+9; 0x1.213154003254ep+7; 0x1.3623d7f51efb7p+7; 0x1.1e051e108c3f4p+7; 0x1.f5deb7fe08af0p+9; 0x1.ae336deb95e5bp+4; 0x1.c570a3d70a3d7p+3; 0x1.262cdfefbf402p+6; 0x1.685e43ed959a3p+4; 0x1.09b2220bc382ap+5; 0x1.20032a0663c75p+5; 0x1.5333343fa2ad4p+4; 0x1.bcccccccccccdp+2; 0x1.3d1955f78359cp+6; 0x1.62dbea0ba1f4bp+4; 0x1.b1aad81adea89p+5; 0x1.ece40bfe3b03ep+6; 0x1.09cd45e9185cfp+5; 0x1.5406d1e108c3fp+6; 0x1.d7437824d4cbap+5];
  [0x1.dc229003eea21p+9; 0x1.2048880d801b4p+7; 0x1.332e13f4a98abp+7; 0x1.1d75c209246bfp+7; 0x1.f0fd6ffc115dfp+9; 0x1.aed33a0407cc8p+4; 0x1.c28f5c28f5c29p+3; 0x1.28c5061416378p+6; 0x1.6979420b3d4aep+4; 0x1.0c2e8e1d6494dp+5; 0x1.2187bc3c5bd0ep+5; 0x1.58f5c182ecaefp+4; 0x1.d70a3d70a3d71p+2; 0x1.3ba94c0160525p+6; 0x1.6d3893faf4278p+4; 0x1.ba641a261bf38p+5; 0x1.eaf177ea1c68fp+6; 0x1.08ca67e846a5dp+5; 0x1.5583a3ec02f30p+6; 0x1.d5ec8de2ac322p+5];
  [0x1.cfaa3dff3f0fep+9; 0x1.1c26c204f2ae0p+7; 0x1.2d28f605ab3abp+7; 0x1.1b0f5c0767d35p+7; 0x1.e863d7fd82774p+9; 0x1.a8955c52e72dap+4; 0x1.acccccccccccdp+3; 0x1.2ac634117f844p+6; 0x1.6f797bb730835p+4; 0x1.09c60242d05f3p+5; 0x1.1e1d75e2046c7p+5; 0x1.5c51eb851eb85p+4; 0x1.ee147ae147ae1p+2; 0x1.3b27fbefd0071p+6; 0x1.69138476f2a5ap+4; 0x1.b986c7eae5bc8p+5; 0x1.e7d7d1fe64f55p+6; 0x1.06b0b9dc2f406p+5; 0x1.58af61ed5ae1dp+6; 0x1.d090ea18372e7p+5];
  [0x1.d63eb7fe08af0p+9; 0x1.204d940789614p+7; 0x1.327ae1ef73c0cp+7; 0x1.1fe66601bc98ap+7; 0x1.ef2a3dff3f0fep+9; 0x1.a68e11dbca969p+4; 0x1.a75c28f5c28f6p+3; 0x1.2cbd57ff9b563p+6; 0x1.791b866e43aa8p+4; 0x1.0ca5e3da2f8bep+5; 0x1.1fefbc1acde1ap+5; 0x1.5a1479d4d8341p+4; 0x1.0051eb851eb85p+3; 0x1.3cc9c1f85d745p+6; 0x1.6c43ba3443d47p+4; 0x1.be29d1f601798p+5; 0x1.f01209edbf8bap+6; 0x1.0688e60807358p+5; 0x1.5f9d2fe3f35a0p+6; 0x1.d24cadddf43c8p+5];
  [0x1.cae51dffc547ap+9; 0x1.1c0d71f36262dp+7; 0x1.2e1479f666235p+7; 0x1.199eb80ecfa6ap+7; 0x1.e7f70a02b8412p+9; 0x1.a59e657b84dbap+4; 0x1.9333333333333p+3; 0x1.2a75b5fa22707p+6; 0x1.800e4da09cc32p+4; 0x1.0ed2c1f42bb66p+5; 0x1.1d8205ff1d81fp+5; 0x1.54f5c182ecaefp+4; 0x1.1000000000000p+3; 0x1.3990281ba7fc3p+6; 0x1.780fb00bcbe62p+4; 0x1.c203ac0c62e4dp+5; 0x1.e2f44bf4cb189p+6; 0x1.0599f01b866e4p+5; 0x1.64d20e1f7d73dp+6; 0x1.cbd6a619da9cap+5];
  [0x1.c65d6ffc115dfp+9; 0x1.1cb985f06f694p+7; 0x1.2df5c209246bfp+7; 0x1.19cccc0379314p+7; 0x1.e400000000000p+9; 0x1.a57673c4f3ba7p+4; 0x1.8f5c28f5c28f6p+3; 0x1.297a240314877p+6; 0x1.7f1bc01a36e2fp+4; 0x1.0f5dfa00e27e1p+5; 0x1.1e57be121ee67p+5; 0x1.5c28f5c28f5c3p+4; 0x1.1b851eb851eb8p+3; 0x1.39ae0008637bdp+6; 0x1.715da597d49d8p+4; 0x1.c29083dbc2331p+5; 0x1.e2b73de1e2de8p+6; 0x1.054a47ecfe9b8p+5; 0x1.65cc96030c240p+6; 0x1.cb71cc100e6b0p+5];
  [0x1.c15999fe43676p+9; 0x1.1bb2580c308ffp+7; 0x1.28dc280ae1049p+7; 0x1.19fae1ef73c0cp+7; 0x1.dcd479fec99f2p+9; 0x1.ac54141e9af5cp+4; 0x1.84ccccccccccdp+3; 0x1.2838240b78034p+6; 0x1.85bdae81882aep+4; 0x1.1456d43d03969p+5; 0x1.213a08398a655p+5; 0x1.647ae2541d8e8p+4; 0x1.26147ae147ae1p+3; 0x1.3f00bbf50e347p+6; 0x1.7677963992c8cp+4; 0x1.d16b15f88fc93p+5; 0x1.e00d87f88765cp+6; 0x1.07144c37e6f72p+5; 0x1.6d14c61d8622cp+6; 0x1.caf8c5c9a34cap+5];
  [0x1.c7dae2003ab86p+9; 0x1.1cdcf5f4e4431p+7; 0x1.2cae13f4a98abp+7; 0x1.21bd6ffc115dfp+7; 0x1.e5b333fc86cecp+9; 0x1.aac49dbec2481p+4; 0x1.a6147ae147ae1p+3; 0x1.280fe21d96e9cp+6; 0x1.8987ebf22c01ep+4; 0x1.0ffd13d74d595p+5; 0x1.214d740c4156ep+5; 0x1.623d6f9767903p+4; 0x1.16147ae147ae1p+3; 0x1.3a255c0fcb4f2p+6; 0x1.616c9e236c15dp+4; 0x1.c9024dd2f1aa0p+5; 0x1.e5b503fb37436p+6; 0x1.05add82fd75e2p+5; 0x1.70bde3fbbd7b2p+6; 0x1.c88775fb2edfep+5];
  [0x1.c55851fc4c166p+9; 0x1.1a2ca600b0293p+7; 0x1.29a3d7f51efb7p+7; 0x1.1c666601bc98ap+7; 0x1.e291ec02f2f98p+9; 0x1.9a8a38327674dp+4; 0x1.a0a3d70a3d70ap+3; 0x1.28a6d3f9e7b81p+6; 0x1.8636f5caf2d80p+4; 0x1.0ee6a5d6bebe1p+5; 0x1.1dd7ca2120e1fp+5; 0x1.4a66666666666p+4; 0x1.fb851eb851eb8p+2; 0x1.374f3bea91d9bp+6; 0x1.59c5b9e8c47a1p+4; 0x1.c345942917508p+5; 0x1.e1022c01e68a1p+6; 0x1.026979e16d6dcp+5; 0x1.6f8f97edc7ef1p+6; 0x1.c5d9a62ed3522p+5];
  [0x1.cb4b86013660ep+9; 0x1.1d0a81fd9ba1bp+7; 0x1.2ee147f130596p+7; 0x1.1cdc280ae1049p+7; 0x1.e9614801f7510p+9; 0x1.980b167ec7864p+4; 0x1.ab851eb851eb8p+3; 0x1.2819f40a2877fp+6; 0x1.881c13fd0d068p+4; 0x1.0f71dbca9691ap+5; 0x1.1c4e29f9ce8d9p+5; 0x1.4a3d6f9767903p+4; 0x1.f1eb851eb851fp+2; 0x1.37b2b40f66a55p+6; 0x1.54088c60cbf2bp+4; 0x1.c6cef240fa9c1p+5; 0x1.e69543f1c7582p+6; 0x1.036c59fb1e18fp+5; 0x1.71692ff4ba51ap+6; 0x1.c9512c27a6373p+5];
  [0x1.d0666601bc98ap+9; 0x1.1ec7e004b7f5ap+7; 0x1.3300000000000p+7; 0x1.1f9eb80ecfa6ap+7; 0x1.f23c28027d88cp+9; 0x1.9653ae685db77p+4; 0x1.b9eb851eb851fp+3; 0x1.1fd8c9fb6134dp+6; 0x1.890ea39c51dacp+4; 0x1.116311e85fd05p+5; 0x1.1b26efc371da3p+5; 0x1.499999999999ap+4; 0x1.dd70a3d70a3d7p+2; 0x1.3777060bb2bbbp+6; 0x1.5b0c33b539325p+4; 0x1.aa337e2c55c96p+5; 0x1.e8b187e7c06e2p+6; 0x1.03e3d3e4ef028p+5; 0x1.6ed023e9ea140p+6; 0x1.c7813e3e29308p+5];
  [0x1.d10b86013660ep+9; 0x1.1fb5bff04577ep+7; 0x1.368a3df6db941p+7; 0x1.239eb80ecfa6ap+7; 0x1.f110a400fba88p+9; 0x1.9ba1d6494d50fp+4; 0x1.bc7ae147ae148p+3; 0x1.20ca4df47f994p+6; 0x1.847a43fe5c91dp+4; 0x1.1304bc27631b6p+5; 0x1.196241c3efae8p+5; 0x1.4400000000000p+4; 0x1.e666666666666p+2; 0x1.392caff6d3309p+6; 0x1.60f22e1ac57e2p+4; 0x1.a5f50c1b97354p+5; 0x1.eeaa921ccd962p+6; 0x1.0205e5f30e7ffp+5; 0x1.6d6562174c4cep+6; 0x1.c836c9c0a8d22p+5];
  [0x1.d7ea3dff3f0fep+9; 0x1.202009f623077p+7; 0x1.3dcccc0379314p+7; 0x1.2a00000000000p+7; 0x1.f7414801f7510p+9; 0x1.9ec0c4156e265p+4; 0x1.c947ae147ae14p+3; 0x1.22a33c1ce6c09p+6; 0x1.8087980f55de6p+4; 0x1.13cb9c304cceep+5; 0x1.1b26efc371da3p+5; 0x1.3f5c27e953155p+4; 0x1.e8f5c28f5c28fp+2; 0x1.3a92ca148ba84p+6; 0x1.5b3503b81b64ep+4; 0x1.a2e461f9f01b8p+5; 0x1.f2d8e219652bdp+6; 0x1.026979e16d6dcp+5; 0x1.6c22edfe75bc4p+6; 0x1.cd41bc126a65dp+5];
  [0x1.d99479fec99f2p+9; 0x1.2423700474d9cp+7; 0x1.3e851e108c3f4p+7; 0x1.2b0a3df6db941p+7; 0x1.f450a400fba88p+9; 0x1.a207a17f4128cp+4; 0x1.b0f5c28f5c28fp+3; 0x1.27003211cb03ap+6; 0x1.84cb1feeb2d0ap+4; 0x1.169797cc39ffdp+5; 0x1.1662adc4c9c91p+5; 0x1.3ee147ae147aep+4; 0x1.06147ae147ae1p+3; 0x1.3a9cbc05d52c1p+6; 0x1.62617a02fb5d0p+4; 0x1.ad94a2339c0ecp+5; 0x1.f39a921ccd962p+6; 0x1.02e0f3cb3e575p+5; 0x1.6e757214f0521p+6; 0x1.cbff0025bfad3p+5];
  [0x1.ddfeb7fe08af0p+9; 0x1.26a62e09fe868p+7; 0x1.3ff0a3f8982cbp+7; 0x1.2fa8f605ab3abp+7; 0x1.f4e7ae03b3e9ap+9; 0x1.a1dfb1e18efbbp+4; 0x1.bd70a3d70a3d7p+3; 0x1.2c1245f5ad96ap+6; 0x1.7e519bd4067cfp+4; 0x1.1a661bf37b8d4p+5; 0x1.1713cff64cf8dp+5; 0x1.463d6f9767903p+4; 0x1.01eb851eb851fp+3; 0x1.3bd115df6555cp+6; 0x1.63a7f5e84f095p+4; 0x1.b24bc9cd3e0bdp+5; 0x1.f9bc621b7e0acp+6; 0x1.040ba9d1f6018p+5; 0x1.6b1cefed63455p+6; 0x1.cefd7dbf487fdp+5];
  [0x1.dcb5c200c0f02p+9; 0x1.27ad5c0fcb4f2p+7; 0x1.3f75c209246bfp+7; 0x1.2e75c209246bfp+7; 0x1.f9051dffc547ap+9; 0x1.a27f79c842fa5p+4; 0x1.b99999999999ap+3; 0x1.2c30780fdc161p+6; 0x1.7b51819d2391dp+4; 0x1.1aa1cbccf28c8p+5; 0x1.17c4f227d028ap+5; 0x1.4733343fa2ad4p+4; 0x1.2147ae147ae14p+3; 0x1.3a2f51efb6dcap+6; 0x1.66868b9fdbd30p+4; 0x1.b81ca2120e1f8p+5; 0x1.fb687df5cf249p+6; 0x1.02a535c9e6688p+5; 0x1.67ba57eaa2a0bp+6; 0x1.cb9a240314877p+5];
  [0x1.e2b333fc86cecp+9; 0x1.28b489f40a287p+7; 0x1.45b8520d130e0p+7; 0x1.3380000000000p+7; 0x1.001ccbff47736p+10; 0x1.a39715c63ae25p+4; 0x1.af5c28f5c28f6p+3; 0x1.2b856605ee569p+6; 0x1.796c625e99e95p+4; 0x1.1b0539fba450bp+5; 0x1.14b1afc04c8bdp+5; 0x1.43851dabe2718p+4; 0x1.2051eb851eb85p+3; 0x1.392caff6d3309p+6; 0x1.60f22e1ac57e2p+4; 0x1.b6761fe21d96fp+5; 0x1.fc9a500d5e8d5p+6; 0x1.038044284dfcep+5; 0x1.6677e414e7ee9p+6; 0x1.caa815e39713bp+5];
  [0x1.e571ec02f2f98p+9; 0x1.2a9045fe11127p+7; 0x1.4847adf2ecf20p+7; 0x1.324ccc0379314p+7; 0x1.00b7adff822bcp+10; 0x1.a45ed3953dea4p+4; 0x1.b19999999999ap+3; 0x1.2a3953dea465ap+6; 0x1.7bf3343fa2ad4p+4; 0x1.1b54ca0c282c7p+5; 0x1.15c539fba450bp+5; 0x1.47d70a3d70a3dp+4; 0x1.15c28f5c28f5cp+3; 0x1.3a255c0fcb4f2p+6; 0x1.67f5d9a0f0a5fp+4; 0x1.b972a7bd48cb5p+5; 0x1.fdd64e054690ep+6; 0x1.058603d577964p+5; 0x1.66fae21101b00p+6; 0x1.c9de603d57796p+5];
  [0x1.e41333fc86cecp+9; 0x1.29381ffb480a6p+7; 0x1.490f5c0767d35p+7; 0x1.3038520d130e0p+7; 0x1.012ccbff47736p+10; 0x1.a0782c2bd7f52p+4; 0x1.b99999999999ap+3; 0x1.2ad045fe11127p+6; 0x1.7a0e160d887ecp+4; 0x1.1add73c925786p+5; 0x1.18c4d013a92a3p+5; 0x1.4a3d6f9767903p+4; 0x1.3333333333333p+3; 0x1.3a2f51efb6dcap+6; 0x1.58f9a9da597d5p+4; 0x1.a81445ed4a1adp+5; 0x1.ff8ca2120e1f8p+6; 0x1.04e6b6177ea1cp+5; 0x1.66fae21101b00p+6; 0x1.c93cffeb074a7p+5];
  [0x1.e675c200c0f02p+9; 0x1.2914b20fb224bp+7; 0x1.48dc280ae1049p+7; 0x1.2fc7adf2ecf20p+7; 0x1.006ae2003ab86p+10; 0x1.944c5fbf83383p+4; 0x1.bc28f5c28f5c3p+3; 0x1.2b53161a1db87p+6; 0x1.77d81beb18117p+4; 0x1.18393dd97f62bp+5; 0x1.18b12018a43bbp+5; 0x1.4a3d6f9767903p+4; 0x1.1a8f5c28f5c29p+3; 0x1.374f3bea91d9bp+6; 0x1.4eee9bbf0dc77p+4; 0x1.a97e6bc621b7ep+5; 0x1.015e100607810p+7; 0x1.046f3a14cec42p+5; 0x1.65c284167a95dp+6; 0x1.c8d825e13b18ep+5];
  [0x1.ea2b86013660ep+9; 0x1.2cadd00f776c5p+7; 0x1.4c00000000000p+7; 0x1.30851e108c3f4p+7; 0x1.03bccbff47736p+10; 0x1.8ccef672b8844p+4; 0x1.c51eb851eb852p+3; 0x1.2e3bba12b5e53p+6; 0x1.7994cb9ecf638p+4; 0x1.164809d495183p+5; 0x1.168a0c282c6efp+5; 0x1.4451eb851eb85p+4; 0x1.0cccccccccccdp+3; 0x1.36569014b599bp+6; 0x1.4586cb966be7bp+4; 0x1.aeae4c0df58c1p+5; 0x1.01dd79f234656p+7; 0x1.03309bf9c62a2p+5; 0x1.674b7fe08aefbp+6; 0x1.c928d5c74751dp+5];
  [0x1.db5999fe43676p+9; 0x1.2df6c80c73abdp+7; 0x1.4a8f5c0767d35p+7; 0x1.30e147f130596p+7; 0x1.03f7adff822bcp+10; 0x1.8cf6ea4228998p+4; 0x1.c3851eb851eb8p+3; 0x1.34a3eff195033p+6; 0x1.829523b3636f4p+4; 0x1.1456d43d03969p+5; 0x1.16765dbfceb79p+5; 0x1.41c29068986fdp+4; 0x1.19eb851eb851fp+3; 0x1.37e46fdeb52cap+6; 0x1.5bd83f91e646fp+4; 0x1.b2c481f53825ep+5; 0x1.02c7ebf22c01ep+7; 0x1.017a7fc32ebe6p+5; 0x1.6d472606fac60p+6; 0x1.cd55e6362a5e8p+5];
  [0x1.d9e66601bc98ap+9; 0x1.2f632df505d10p+7; 0x1.4b38520d130e0p+7; 0x1.379479f666235p+7; 0x1.07333400b88cap+10; 0x1.8f4e1a3f4666fp+4; 0x1.d851eb851eb85p+3; 0x1.36225204af923p+6; 0x1.7e519bd4067cfp+4; 0x1.14ba46173b85fp+5; 0x1.2460b5ed8d36bp+5; 0x1.3a66666666666p+4; 0x1.1851eb851eb85p+3; 0x1.3847ea1c68ec5p+6; 0x1.5c7b7d84901d2p+4; 0x1.b4bb8023a6ce3p+5; 0x1.04cab606b7aa2p+7; 0x1.ffb09fa54c554p+4; 0x1.69da7c17a8933p+6; 0x1.c88775fb2edfep+5];
  [0x1.d30b86013660ep+9; 0x1.29a777f27fe4cp+7; 0x1.54e147f130596p+7; 0x1.344ccc0379314p+7; 0x1.0580000000000p+10; 0x1.926d05f288484p+4; 0x1.c3d70a3d70a3dp+3; 0x1.3997d41743e96p+6; 0x1.7cbd5992428d4p+4; 0x1.1736b228dc982p+5; 0x1.2efcbff47735cp+5; 0x1.36b851eb851ecp+4; 0x1.299999999999ap+3; 0x1.3a1177ea1c68fp+6; 0x1.6238aa00192a7p+4; 0x1.c05d29dc725c4p+5; 0x1.00b0c1fc8f323p+7; 0x1.00b35c182ecafp+5; 0x1.685b91f70de8fp+6; 0x1.d4d227d028a1ep+5];
  [0x1.d6c3d7fd82774p+9; 0x1.278f000431bdfp+7; 0x1.58e66601bc98ap+7; 0x1.3b1eb80ecfa6ap+7; 0x1.fe051dffc547ap+9; 0x1.8e5e6bc621b7ep+4; 0x1.be66666666666p+3; 0x1.39b604189374cp+6; 0x1.7b79ee02a77a3p+4; 0x1.15e497fa5d28dp+5; 0x1.2bd5d3dc8b86bp+5; 0x1.370a3e7d13511p+4; 0x1.26b851eb851ecp+3; 0x1.3549fbe76c8b4p+6; 0x1.5ca44fa05143cp+4; 0x1.c50036006d0d5p+5; 0x1.fd51cc100e6b0p+6; 0x1.01de121ee6751p+5; 0x1.674b7fe08aefbp+6; 0x1.a97c0c1fc8f32p+5];
  [0x1.d140000000000p+9; 0x1.26094a0a0f4d8p+7; 0x1.5280000000000p+7; 0x1.35e66601bc98ap+7; 0x1.ede3d7fd82774p+9; 0x1.8f9dffc5479d5p+4; 0x1.b3851eb851eb8p+3; 0x1.3a6b25f633ce6p+6; 0x1.7ce5c810a569bp+4; 0x1.17864020817fcp+5; 0x1.2bd5d3dc8b86bp+5; 0x1.4051eb851eb85p+4; 0x1.170a3d70a3d71p+3; 0x1.36ffa7eb6bf44p+6; 0x1.5086b7aa25d8dp+4; 0x1.ca8091c087443p+5; 0x1.fce1a7e308787p+6; 0x1.01f1fddebd902p+5; 0x1.69577e1b8ed1cp+6; 0x1.a953b213e3e29p+5];
  [0x1.d16a3dff3f0fep+9; 0x1.28a559f6ec5b0p+7; 0x1.53b8520d130e0p+7; 0x1.3575c209246bfp+7; 0x1.f21851fc4c166p+9; 0x1.8cf6ea4228998p+4; 0x1.b6b851eb851ecp+3; 0x1.3c6c560c7c0f4p+6; 0x1.821bdc69f8c22p+4; 0x1.0e0bde3fbbd7bp+5; 0x1.2ae9a3d2d87f9p+5; 0x1.24cccbc05d52cp+4; 0x1.0f5c28f5c28f6p+3; 0x1.3780f7fcfc3f8p+6; 0x1.439d11be6e654p+4; 0x1.d3762e09fe868p+5; 0x1.01ce30014f8b6p+7; 0x1.0152ae07e5a79p+5; 0x1.6e2ee807bbb62p+6; 0x1.af3c87db2b346p+5];
  [0x1.d131ec02f2f98p+9; 0x1.36a9a60d4562ep+7; 0x1.529999fe43676p+7; 0x1.2fd1ec0b56755p+7; 0x1.f1f1ec02f2f98p+9; 0x1.8e367c286f8adp+4; 0x1.abd70a3d70a3dp+3; 0x1.3c8a860dcb9aap+6; 0x1.8451d57ff9b56p+4; 0x1.0e8333fc86cecp+5; 0x1.263911cf355cep+5; 0x1.28f5c182ecaefp+4; 0x1.047ae147ae148p+3; 0x1.392caff6d3309p+6; 0x1.1d5a964e8b7e5p+4; 0x1.d2acfe154434ep+5; 0x1.040907faa044bp+7; 0x1.0294680171194p+5; 0x1.6e7f840181e04p+6; 0x1.b4c0841ede11ap+5];
  [0x1.cdd333fc86cecp+9; 0x1.338f1001d5c31p+7; 0x1.512e13f4a98abp+7; 0x1.32a3d7f51efb7p+7; 0x1.ed75c200c0f02p+9; 0x1.91f52fc2656acp+4; 0x1.a7ae147ae147bp+3; 0x1.3de0a808c825ap+6; 0x1.80d871e6cd291p+4; 0x1.0e1fc43b2dd37p+5; 0x1.264cc03793144p+5; 0x1.24f5c182ecaefp+4; 0x1.1570a3d70a3d7p+3; 0x1.38bf45e0b4e12p+6; 0x1.1b70dc768dfbdp+4; 0x1.d51cb039ef0f1p+5; 0x1.029a0ff540896p+7; 0x1.0695f02c4d65ep+5; 0x1.6c18d9f9053a0p+6; 0x1.b6b8c9fb6134dp+5];
  [0x1.cffae2003ab86p+9; 0x1.352e11fd5885dp+7; 0x1.533d6ffc115dfp+7; 0x1.32a8f605ab3abp+7; 0x1.edca3dff3f0fep+9; 0x1.9245143bf7271p+4; 0x1.a3d70a3d70a3dp+3; 0x1.3c5837f7be122p+6; 0x1.8a520e1f7d73dp+4; 0x1.12022ff08893bp+5; 0x1.2773f7ced9168p+5; 0x1.263d6f9767903p+4; 0x1.0a8f5c28f5c29p+3; 0x1.37a8c21e1d218p+6; 0x1.1d08f42fe8251p+4; 0x1.d9bfb9bed30f0p+5; 0x1.027661f18c9fbp+7; 0x1.083c33f85510dp+5; 0x1.70a9bfdf7e804p+6; 0x1.b4d4ae429e0a4p+5];
  [0x1.d0ae13fd0d068p+9; 0x1.39f6da0168b5dp+7; 0x1.57f5c209246bfp+7; 0x1.3dae13f4a98abp+7; 0x1.f0229003eea21p+9; 0x1.8fede225fa659p+4; 0x1.adc28f5c28f5cp+3; 0x1.3f7d3a1d323ffp+6; 0x1.8a29a1b9f98b7p+4; 0x1.123dd7ecbb7fap+5; 0x1.28251a005c465p+5; 0x1.28f5c182ecaefp+4; 0x1.12e147ae147aep+3; 0x1.3777060bb2bbbp+6; 0x1.149604189374cp+4; 0x1.e561682f94424p+5; 0x1.0393cc07aaef3p+7; 0x1.05a4a1f080304p+5; 0x1.72147e06961c3p+6; 0x1.b653edd8b60f2p+5];
  [0x1.cf651dffc547ap+9; 0x1.3c7999fe43676p+7; 0x1.5675c209246bfp+7; 0x1.3b00000000000p+7; 0x1.eeeb86013660ep+9; 0x1.8ed641f644956p+4; 0x1.a3851eb851eb8p+3; 0x1.40b52c16df3f9p+6; 0x1.8937121ab4b73p+4; 0x1.12f0d62bf11f9p+5; 0x1.26ea3400b88cap+5; 0x1.3400000000000p+4; 0x1.1bd70a3d70a3dp+3; 0x1.36b016052502fp+6; 0x1.0e87379746024p+4; 0x1.e32e0e30446b7p+5; 0x1.028093faf4278p+7; 0x1.05685015c2092p+5; 0x1.70bde3fbbd7b2p+6; 0x1.af8561d4306e6p+5];
  [0x1.cd7333fc86cecp+9; 0x1.3e69960fa15dbp+7; 0x1.565c280ae1049p+7; 0x1.3afae1ef73c0cp+7; 0x1.eb014801f7510p+9; 0x1.912d740c4156ep+4; 0x1.9a8f5c28f5c29p+3; 0x1.42cdd7ecbb7fap+6; 0x1.86b03e20ccff2p+4; 0x1.1216102795704p+5; 0x1.26ea3400b88cap+5; 0x1.319999999999ap+4; 0x1.2b33333333333p+3; 0x1.37a8c21e1d218p+6; 0x1.0c4bdfd2630ecp+4; 0x1.dff529fe004b8p+5; 0x1.024369fcf3dc0p+7; 0x1.06be260b2c83fp+5; 0x1.7026c00da1a93p+6; 0x1.a958f1d3ed528p+5];
  [0x1.c59eb7fe08af0p+9; 0x1.34453bf2f5558p+7; 0x1.4ecccc0379314p+7; 0x1.2f8a3df6db941p+7; 0x1.de75c200c0f02p+9; 0x1.8ac7a7c9de050p+4; 0x1.83d70a3d70a3dp+3; 0x1.3f0be0157eed4p+6; 0x1.7ce5c810a569bp+4; 0x1.0efa8bd230b9ep+5; 0x1.259b9bed30f06p+5; 0x1.2b5c27e953155p+4; 0x1.1800000000000p+3; 0x1.35d0b8066c2adp+6; 0x1.0dbb29a1b9f99p+4; 0x1.d5d1c432ca57ap+5; 0x1.fc5d25edd0529p+6; 0x1.0681d2178f68cp+5; 0x1.6ae079e59f2bbp+6; 0x1.a40b5dcc63f14p+5];
  [0x1.c931ec02f2f98p+9; 0x1.388eb80ecfa6ap+7; 0x1.5028f605ab3abp+7; 0x1.2f666601bc98ap+7; 0x1.e3feb7fe08af0p+9; 0x1.89383382e44b7p+4; 0x1.875c28f5c28f6p+3; 0x1.3e049a133c1cep+6; 0x1.78caada33bd9dp+4; 0x1.0f5dfa00e27e1p+5; 0x1.24ea7bd48cb4bp+5; 0x1.28cccbc05d52cp+4; 0x1.1c28f5c28f5c3p+3; 0x1.32d56c0d6f545p+6; 0x1.0bfa3db3bfb59p+4; 0x1.d81938151a438p+5; 0x1.ffde30014f8b6p+6; 0x1.052bfc2224edfp+5; 0x1.67d891e215337p+6; 0x1.a4ea4228997c4p+5];
  [0x1.cd55c200c0f02p+9; 0x1.3d42e5ffa3b9bp+7; 0x1.5580000000000p+7; 0x1.3538520d130e0p+7; 0x1.eba66601bc98ap+9; 0x1.8bb75a74c09c4p+4; 0x1.9851eb851eb85p+3; 0x1.3f345fe111277p+6; 0x1.81a294141e9afp+4; 0x1.138ff43419e30p+5; 0x1.27fdbe3c10518p+5; 0x1.2d47ae147ae14p+4; 0x1.13851eb851eb8p+3; 0x1.32e9841aac53bp+6; 0x1.0dbb29a1b9f99p+4; 0x1.dd20dc33721d5p+5; 0x1.04fdaa0cae643p+7; 0x1.05a4a1f080304p+5; 0x1.6c0ec41dd1a22p+6; 0x1.a53b4dcebfec1p+5];
  [0x1.cd1c28027d88cp+9; 0x1.40bc100e6afcdp+7; 0x1.5600000000000p+7; 0x1.3b80000000000p+7; 0x1.eb5eb7fe08af0p+9; 0x1.884886162f167p+4; 0x1.a0a3d70a3d70ap+3; 0x1.3f7b4202d9cf1p+6; 0x1.826cb641700cep+4; 0x1.141b2c40d0aaap+5; 0x1.256091c087443p+5; 0x1.23851dabe2718p+4; 0x1.1428f5c28f5c3p+3; 0x1.322aade657b85p+6; 0x1.18bb17ce52dedp+4; 0x1.cf7417ca2120ep+5; 0x1.05f76a0dbad3ap+7; 0x1.06316440f2389p+5; 0x1.6d009e12a51e3p+6; 0x1.a4ad783dff3f1p+5];
  [0x1.cf7ae2003ab86p+9; 0x1.3f71cc100e6b0p+7; 0x1.5400000000000p+7; 0x1.3f00000000000p+7; 0x1.e9170a02b8412p+9; 0x1.87a8be2f7b17dp+4; 0x1.9428f5c28f5c3p+3; 0x1.404fe9fadafd1p+6; 0x1.7e00c4156e265p+4; 0x1.15bcd1c7de508p+5; 0x1.25ea582dbe7f3p+5; 0x1.22e147ae147aep+4; 0x1.119999999999ap+3; 0x1.2fee3608d0892p+6; 0x1.177499d0203e6p+4; 0x1.dcd063e07a28cp+5; 0x1.078a0ff540896p+7; 0x1.06092ddbdb5d9p+5; 0x1.6a7bb40b34e77p+6; 0x1.a772a411c2a02p+5];
  [0x1.c77d6ffc115dfp+9; 0x1.394fc9ff92f2bp+7; 0x1.4dd1ec0b56755p+7; 0x1.47d709fa54c55p+7; 0x1.e048f5fd47beep+9; 0x1.8232a0663c750p+4; 0x1.8ae147ae147aep+3; 0x1.3b3fc7e6b3feap+6; 0x1.755147f130596p+4; 0x1.0fe9320d9945bp+5; 0x1.211267c6b8b69p+5; 0x1.1cf5c182ecaefp+4; 0x1.0666666666666p+3; 0x1.2b2ef416bdb1ap+6; 0x1.1656ebd4cfd09p+4; 0x1.d8ba2df9378eep+5; 0x1.0492a60913a50p+7; 0x1.02d0bbf50e347p+5; 0x1.64d0abf76a2f5p+6; 0x1.a3ce93e1c9b41p+5];
  [0x1.c755c200c0f02p+9; 0x1.3898e0008637cp+7; 0x1.4ed1ec0b56755p+7; 0x1.4f00000000000p+7; 0x1.df3c28027d88cp+9; 0x1.7f13b3a68b19ap+4; 0x1.8bd70a3d70a3dp+3; 0x1.39b4e0114d2f6p+6; 0x1.75006e19b90ebp+4; 0x1.0e9719f7f8ca8p+5; 0x1.1f4dbbe0157efp+5; 0x1.11eb862b27cbfp+4; 0x1.14ccccccccccdp+3; 0x1.2cac9c0a8d21cp+6; 0x1.1dfdd44135547p+4; 0x1.d362120e1f7d7p+5; 0x1.05172606fac60p+7; 0x1.009db3bfb58d1p+5; 0x1.652b5bf6a0dbbp+6; 0x1.a11dabe27179cp+5];
  [0x1.c55479fec99f2p+9; 0x1.380587f88765cp+7; 0x1.4f8f5c0767d35p+7; 0x1.5280000000000p+7; 0x1.dca51dffc547ap+9; 0x1.7e240639d5e4ap+4; 0x1.819999999999ap+3; 0x1.3b49e7fb267c7p+6; 0x1.71362d83c6c98p+4; 0x1.0f3633ce63a5cp+5; 0x1.20eb0c026cc1dp+5; 0x1.0970a3d70a3d7p+4; 0x1.119999999999ap+3; 0x1.2ba779e9d0e99p+6; 0x1.189245b291b82p+4; 0x1.db15c42203600p+5; 0x1.06aee6106ab15p+7; 0x1.0152ae07e5a79p+5; 0x1.64bc83ec892abp+6; 0x1.a4ad783dff3f1p+5];
  [0x1.ce5851fc4c166p+9; 0x1.3d1f55ffe6d59p+7; 0x1.5347adf2ecf20p+7; 0x1.5ceb860999dcbp+7; 0x1.e37333fc86cecp+9; 0x1.7fdb70691ea79p+4; 0x1.8570a3d70a3d7p+3; 0x1.3c83cff64cf8dp+6; 0x1.78516440f2389p+4; 0x1.123dd7ecbb7fap+5; 0x1.23fe4de3b8a1ap+5; 0x1.0c7ae2541d8e8p+4; 0x1.20f5c28f5c28fp+3; 0x1.2d110a137f38cp+6; 0x1.1e4f722e1ac58p+4; 0x1.e59dc4007570cp+5; 0x1.0a62e5ffa3b9bp+7; 0x1.0462e7f6f4be8p+5; 0x1.6865a5fc7e6b4p+6; 0x1.aef78bbd38045p+5];
  [0x1.cf80000000000p+9; 0x1.3d84f3fd933e3p+7; 0x1.516b860999dcbp+7; 0x1.5f9999fe43676p+7; 0x1.df00000000000p+9; 0x1.7c948fd9fd36fp+4; 0x1.8f5c28f5c28f6p+3; 0x1.3c471001d5c31p+6; 0x1.773666234a87ep+4; 0x1.13b7b9e060fe4p+5; 0x1.238837f7be122p+5; 0x1.0fd70a3d70a3dp+4; 0x1.123d70a3d70a4p+3; 0x1.2c8e79ee02a78p+6; 0x1.25017b95a2941p+4; 0x1.e80d7625204b0p+5; 0x1.08eed5f138bcep+7; 0x1.0517e23f24d90p+5; 0x1.68d47e06961c3p+6; 0x1.ac09dbec2480fp+5];
  [0x1.cca3d7fd82774p+9; 0x1.3c1c33f85510dp+7; 0x1.4f7ae1ef73c0cp+7; 0x1.5e00000000000p+7; 0x1.dc3999fe43676p+9; 0x1.7b2d0c3d25248p+4; 0x1.9000000000000p+3; 0x1.35dea8112ba17p+6; 0x1.7879cf9a06a6ep+4; 0x1.13f363f572de4p+5; 0x1.21afdc1615ec0p+5; 0x1.10cccbc05d52cp+4; 0x1.119999999999ap+3; 0x1.2b75421c04428p+6; 0x1.28834e3369b9dp+4; 0x1.e5b1dffc5479dp+5; 0x1.08b6c5f394b7bp+7; 0x1.0503c42a66dbdp+5; 0x1.683d55e6bc622p+6; 0x1.aaee2e2b8c75cp+5];
  [0x1.c9f1ec02f2f98p+9; 0x1.3d47fbefd0071p+7; 0x1.4ca3d7f51efb7p+7; 0x1.577ae1ef73c0cp+7; 0x1.d8a14801f7510p+9; 0x1.7e240639d5e4ap+4; 0x1.8dc28f5c28f5cp+3; 0x1.37044e0daa0cbp+6; 0x1.775ed3953dea4p+4; 0x1.14927dcbddb98p+5; 0x1.2411fddebd902p+5; 0x1.12e147ae147aep+4; 0x1.10a3d70a3d70ap+3; 0x1.2cfcf5f4e4431p+6; 0x1.21a875d56f32cp+4; 0x1.e63eb6390c910p+5; 0x1.084bbc0a06ea0p+7; 0x1.0645803cd141ap+5; 0x1.69b22c01e68a1p+6; 0x1.ae41322f27350p+5];
  [0x1.c8e7ae03b3e9ap+9; 0x1.407a0407cc7d2p+7; 0x1.4e7ae1ef73c0cp+7; 0x1.509999fe43676p+7; 0x1.d9029003eea21p+9; 0x1.7dd423d9231c6p+4; 0x1.875c28f5c28f6p+3; 0x1.34a4c01605250p+6; 0x1.7694b05b7cfe6p+4; 0x1.13df8012dfd69p+5; 0x1.23af922962cfep+5; 0x1.0ee147ae147aep+4; 0x1.13d70a3d70a3dp+3; 0x1.2c01dde37585cp+6; 0x1.18697396d0918p+4; 0x1.eaf5e2046c765p+5; 0x1.0a7c63f141206p+7; 0x1.06e6601bc98a2p+5; 0x1.688df3f961805p+6; 0x1.ae923dd54da4dp+5];
  [0x1.cca51dffc547ap+9; 0x1.4355ac03ff690p+7; 0x1.501999fe43676p+7; 0x1.4ed1ec0b56755p+7; 0x1.dd07ae03b3e9ap+9; 0x1.7d5c4b90214adp+4; 0x1.84ccccccccccdp+3; 0x1.37920ff540896p+6; 0x1.745eb851eb852p+4; 0x1.13f363f572de4p+5; 0x1.22fe7210be942p+5; 0x1.06e147ae147aep+4; 0x1.0eb851eb851ecp+3; 0x1.2bedc7ef177a7p+6; 0x1.15620ff540896p+4; 0x1.b068effe2a3cfp+5; 0x1.0a7749f0e4da1p+7; 0x1.0722afdda8bd2p+5; 0x1.66961fe21d96fp+6; 0x1.ac325dd095af3p+5];
  [0x1.d0c8f5fd47beep+9; 0x1.44353bf2f5558p+7; 0x1.53d709fa54c55p+7; 0x1.5680000000000p+7; 0x1.e3cb86013660ep+9; 0x1.7add29dc725c4p+4; 0x1.9570a3d70a3d7p+3; 0x1.36a92e1ef73c1p+6; 0x1.7ae0b3d4ae42ap+4; 0x1.164809d495183p+5; 0x1.219c2c1b10fd8p+5; 0x1.03ae147ae147bp+4; 0x1.0947ae147ae14p+3; 0x1.2a8e43ed959a3p+6; 0x1.14bed41b75a75p+4; 0x1.a9e303c07ee0bp+5; 0x1.0a62e5ffa3b9bp+7; 0x1.06be260b2c83fp+5; 0x1.6769ba1b19610p+6; 0x1.af8561d4306e6p+5];
  [0x1.d5aa3dff3f0fep+9; 0x1.457f7dfa00e28p+7; 0x1.57f0a3f8982cbp+7; 0x1.577ae1ef73c0cp+7; 0x1.ea4ccc0379314p+9; 0x1.7f13b3a68b19ap+4; 0x1.a000000000000p+3; 0x1.34cd41fa76534p+6; 0x1.7b31f57b41bfcp+4; 0x1.1be0000000000p+5; 0x1.1ffede1198aecp+5; 0x1.0266666666666p+4; 0x1.06b851eb851ecp+3; 0x1.2b75421c04428p+6; 0x1.14bed41b75a75p+4; 0x1.aa6fd9fd36f7ep+5; 0x1.09640df58c08bp+7; 0x1.0a6f3c2dadb83p+5; 0x1.65c284167a95dp+6; 0x1.b2364e054690ep+5];
  [0x1.d4ab86013660ep+9; 0x1.4598e410b630bp+7; 0x1.580a3df6db941p+7; 0x1.561479f666235p+7; 0x1.e920000000000p+9; 0x1.884886162f167p+4; 0x1.a6147ae147ae1p+3; 0x1.35fd09e12a51ep+6; 0x1.7e5ea465a5764p+4; 0x1.223ed7c6fbd27p+5; 0x1.202639d5e4a38p+5; 0x1.05eb862b27cbfp+4; 0x1.f666666666666p+2; 0x1.2c664e054690ep+6; 0x1.1c8e8858ff759p+4; 0x1.ac2a7bd48cb4bp+5; 0x1.09457c0b13598p+7; 0x1.0abfac1d29dc7p+5; 0x1.68f2b5e529baep+6; 0x1.b2c4241c3efaep+5];
  [0x1.d03999fe43676p+9; 0x1.41aff3f0fe048p+7; 0x1.5570a3f8982cbp+7; 0x1.53d709fa54c55p+7; 0x1.e2a29003eea21p+9; 0x1.8232a0663c750p+4; 0x1.9d70a3d70a3d7p+3; 0x1.3ba50c1b97354p+6; 0x1.71fd35eb7457cp+4; 0x1.213c4c165907ep+5; 0x1.1d26a7ef9db23p+5; 0x1.0c28f5c28f5c3p+4; 0x1.e28f5c28f5c29p+2; 0x1.2ecaf3e468cacp+6; 0x1.1e26a22b3892fp+4; 0x1.b24bc9cd3e0bdp+5; 0x1.081dddf43c7d6p+7; 0x1.097df00abf76ap+5; 0x1.6053ee1bd1edap+6; 0x1.b459620685554p+5];
  [0x1.cfe7ae03b3e9ap+9; 0x1.415993f6c269ap+7; 0x1.582e13f4a98abp+7; 0x1.5047adf2ecf20p+7; 0x1.e3e66601bc98ap+9; 0x1.84d9b5e95b78dp+4; 0x1.9b851eb851eb8p+3; 0x1.3cc0941c8216cp+6; 0x1.73938bcdfefbfp+4; 0x1.24a75ff609dd0p+5; 0x1.1927381d7dbf5p+5; 0x1.107ae2541d8e8p+4; 0x1.eeb851eb851ecp+2; 0x1.3511e603d5779p+6; 0x1.240c9fb6134cep+4; 0x1.b570941c8216cp+5; 0x1.089315f88fc93p+7; 0x1.0afc0010c6f7ap+5; 0x1.62b0880d801b4p+6; 0x1.addbe22e5de16p+5];
  [0x1.d3f999fe43676p+9; 0x1.400f4e0114d2fp+7; 0x1.5a6b860999dcbp+7; 0x1.54f5c209246bfp+7; 0x1.e9bc28027d88cp+9; 0x1.76ce8fb00bcbep+4; 0x1.9428f5c28f5c3p+3; 0x1.3ce913e81450fp+6; 0x1.6c97a99fa11a9p+4; 0x1.21abebe1650a4p+5; 0x1.11b21a2e7f6f5p+5; 0x1.1547ae147ae14p+4; 0x1.f8f5c28f5c28fp+2; 0x1.360cf9e3864cbp+6; 0x1.1d8364388ebccp+4; 0x1.b830c026cc1cap+5; 0x1.0fd2500d5e8d5p+7; 0x1.0afc0010c6f7ap+5; 0x1.5c786bdf4c2b5p+6; 0x1.a735dc4007571p+5];
  [0x1.cf40000000000p+9; 0x1.3ad7080303c08p+7; 0x1.55e66601bc98ap+7; 0x1.5200000000000p+7; 0x1.e2f333fc86cecp+9; 0x1.73afa1e3eaf68p+4; 0x1.8800000000000p+3; 0x1.380173fb7a5f4p+6; 0x1.6b52977c88e7ap+4; 0x1.2260bdcad14a1p+5; 0x1.119e6ddf00abfp+5; 0x1.16b851eb851ecp+4; 0x1.e851eb851eb85p+2; 0x1.353a11ec918e3p+6; 0x1.084f9e3864cb6p+4; 0x1.b42ea7ce0fc2fp+5; 0x1.1131fff79c843p+7; 0x1.0bd92e1ef73c1p+5; 0x1.5c0994185058ep+6; 0x1.a75e61cffeb07p+5];
  [0x1.d08a3dff3f0fep+9; 0x1.4089420b3d4aep+7; 0x1.5b051e108c3f4p+7; 0x1.5c1eb80ecfa6ap+7; 0x1.e8fae2003ab86p+9; 0x1.72202b841248dp+4; 0x1.919999999999ap+3; 0x1.38cbfbdf090f7p+6; 0x1.72c8605681ecdp+4; 0x1.251fec13b9f12p+5; 0x1.12c5a5fc7e6b4p+5; 0x1.16b851eb851ecp+4; 0x1.e147ae147ae14p+2; 0x1.36e9f01b866e4p+6; 0x1.0e87379746024p+4; 0x1.b7cc26138fffcp+5; 0x1.1ab12a0ec7432p+7; 0x1.0d9392189bd84p+5; 0x1.616e13f4a98abp+6; 0x1.ab904816f0069p+5];
  [0x1.d208f5fd47beep+9; 0x1.3f441205bc01ap+7; 0x1.59eb860999dcbp+7; 0x1.5e9eb80ecfa6ap+7; 0x1.eb4a3dff3f0fep+9; 0x1.75172580c3090p+4; 0x1.899999999999ap+3; 0x1.3ae4a7f8012e0p+6; 0x1.7c25c5f7c675ap+4; 0x1.295cd8127b2ccp+5; 0x1.16c515ce9e5e2p+5; 0x1.18a3d816aceabp+4; 0x1.e7ae147ae147bp+2; 0x1.37e503fb37436p+6; 0x1.1dac343b70ef5p+4; 0x1.be5210385c67ep+5; 0x1.1b8c51fc4c166p+7; 0x1.15d2f01754b06p+5; 0x1.65c284167a95dp+6; 0x1.a7c3b1d0c8041p+5];
  [0x1.d38b86013660ep+9; 0x1.3cdd460aa64c3p+7; 0x1.5a1999fe43676p+7; 0x1.65f0a3f8982cbp+7; 0x1.f3cccc0379314p+9; 0x1.7836145953587p+4; 0x1.870a3d70a3d71p+3; 0x1.3be1cde5d1809p+6; 0x1.822dd7a99fa12p+4; 0x1.2bdfc2224edf6p+5; 0x1.18ffda4052d66p+5; 0x1.21eb862b27cbfp+4; 0x1.ec28f5c28f5c3p+2; 0x1.38f42fe82517ep+6; 0x1.22eef1bac2df1p+4; 0x1.cc8ba9d1f6018p+5; 0x1.16edddf43c7d6p+7; 0x1.136396073de1ep+5; 0x1.66c881e4712e4p+6; 0x1.adb35c182ecafp+5];
  [0x1.ce8e13fd0d068p+9; 0x1.3a25300581494p+7; 0x1.55eb860999dcbp+7; 0x1.623333fc86cecp+7; 0x1.f01ae2003ab86p+9; 0x1.7a8d44567125ep+4; 0x1.8851eb851eb85p+3; 0x1.3b2b8a19c9d5ap+6; 0x1.80c025bfad29ap+4; 0x1.306d0a2446306p+5; 0x1.173b2dd377e1cp+5; 0x1.1f33343fa2ad4p+4; 0x1.e51eb851eb852p+2; 0x1.3a3593e5fb720p+6; 0x1.2bb5fc3b4f616p+4; 0x1.cad10c2c5e2cep+5; 0x1.19a821f2990f3p+7; 0x1.18a6d612c6ac2p+5; 0x1.661321e603d57p+6; 0x1.af99a415f45e1p+5];
  [0x1.cc251dffc547ap+9; 0x1.3d52240314877p+7; 0x1.5747adf2ecf20p+7; 0x1.61666601bc98ap+7; 0x1.ed651dffc547ap+9; 0x1.79222a2c23748p+4; 0x1.90a3d70a3d70ap+3; 0x1.3df059ea57215p+6; 0x1.82f9042d8c2a4p+4; 0x1.3121d9f4d37c1p+5; 0x1.1d3a543f1c758p+5; 0x1.1ca3d816aceabp+4; 0x1.e99999999999ap+2; 0x1.3a217df19d66bp+6; 0x1.27e175d13d74dp+4; 0x1.cc9fc9ff92f2bp+5; 0x1.19e02ff8ec0f9p+7; 0x1.15bed41b75a75p+5; 0x1.68a21c044284ep+6; 0x1.b0b54fbdad752p+5];
  [0x1.c980000000000p+9; 0x1.3aeb5807fed20p+7; 0x1.54051e108c3f4p+7; 0x1.67f5c209246bfp+7; 0x1.e71851fc4c166p+9; 0x1.817c73eee5259p+4; 0x1.a28f5c28f5c29p+3; 0x1.3c6f901083dbcp+6; 0x1.880d4bad7d7c3p+4; 0x1.2edb37c99ae92p+5; 0x1.1fb023e9ea140p+5; 0x1.15eb862b27cbfp+4; 0x1.e147ae147ae14p+2; 0x1.3a3593e5fb720p+6; 0x1.3174c3c18b503p+4; 0x1.c55a01eeed890p+5; 0x1.198471f79420bp+7; 0x1.173ce2089e343p+5; 0x1.6dc00ffda4053p+6; 0x1.b0ddd5d3dc8b8p+5];
  [0x1.cce7ae03b3e9ap+9; 0x1.3b09d40ee06d9p+7; 0x1.590a3df6db941p+7; 0x1.6823d7f51efb7p+7; 0x1.e4ee13fd0d068p+9; 0x1.7d637bd05af6cp+4; 0x1.a3d70a3d70a3dp+3; 0x1.3ca232096787dp+6; 0x1.8a976ff3ade22p+4; 0x1.2fb8383ad9f0ap+5; 0x1.25c2fbe33acd6p+5; 0x1.0cf5c182ecaefp+4; 0x1.d0a3d70a3d70ap+2; 0x1.3ab825e13b18ep+6; 0x1.2fdc37a3db3c0p+4; 0x1.a11151e75360dp+5; 0x1.1bb0000000000p+7; 0x1.1673cddd6e04cp+5; 0x1.71c3e20ccff22p+6; 0x1.b05001d5c3159p+5];
  [0x1.d1ca3dff3f0fep+9; 0x1.35c24df47f994p+7; 0x1.585709fa54c55p+7; 0x1.63e66601bc98ap+7; 0x1.e69ae2003ab86p+9; 0x1.7f47a072d1aebp+4; 0x1.b7ae147ae147bp+3; 0x1.3e69de0503750p+6; 0x1.8dc41bb8c32a9p+4; 0x1.3121d9f4d37c1p+5; 0x1.2773f7ced9168p+5; 0x1.08a3d816aceabp+4; 0x1.cd70a3d70a3d7p+2; 0x1.3c0393ee5eeddp+6; 0x1.335f080303c08p+4; 0x1.9fb94c0160525p+5; 0x1.1b3095f2452c6p+7; 0x1.1ab1a7e308787p+5; 0x1.745cefed63455p+6; 0x1.b481e81cb46bbp+5];
  [0x1.d23999fe43676p+9; 0x1.30709bf9c62a2p+7; 0x1.5638520d130e0p+7; 0x1.62c7adf2ecf20p+7; 0x1.e25333fc86cecp+9; 0x1.860e779207d4ep+4; 0x1.ad1eb851eb852p+3; 0x1.3c79afe1da7b1p+6; 0x1.8f5a719b4dcecp+4; 0x1.32dbd9cae2110p+5; 0x1.25d6a9c560c7cp+5; 0x1.07d70a3d70a3dp+4; 0x1.c333333333333p+2; 0x1.396cb5fe542e5p+6; 0x1.2c07b02d59d56p+4; 0x1.aa798201cd5fap+5; 0x1.1a278a0902de0p+7; 0x1.1a896dd26b724p+5; 0x1.760e3de6149c7p+6; 0x1.b3663beec397ap+5];
  [0x1.d043d7fd82774p+9; 0x1.2d7677f6b1a2ap+7; 0x1.551479f666235p+7; 0x1.6447adf2ecf20p+7; 0x1.dd8ccc0379314p+9; 0x1.87f29c347e8cdp+4; 0x1.a99999999999ap+3; 0x1.3a93a3ec02f30p+6; 0x1.8d219439de482p+4; 0x1.355ec3dab5c3ap+5; 0x1.28aee2003ab86p+5; 0x1.068f5c28f5c29p+4; 0x1.c70a3d70a3d71p+2; 0x1.398ad601ffb48p+6; 0x1.2df1f46ed245bp+4; 0x1.aa1451fc4c166p+5; 0x1.1a7e31f8a0903p+7; 0x1.1a7551d68c693p+5; 0x1.7544b40703298p+6; 0x1.b40853c148345p+5];
  [0x1.cc7c28027d88cp+9; 0x1.2acd9dfdac68bp+7; 0x1.45bd6ffc115dfp+7; 0x1.532e13f4a98abp+7; 0x1.d5e51dffc547ap+9; 0x1.8bbae685db76bp+4; 0x1.93851eb851eb8p+3; 0x1.3912dbe7f2c30p+6; 0x1.89011a11233dfp+4; 0x1.3c46c5d206c87p+5; 0x1.2cc1fe21d96eap+5; 0x1.0bd70a3d70a3dp+4; 0x1.c8f5c28f5c28fp+2; 0x1.3db3721d53cdep+6; 0x1.32e4766c6de76p+4; 0x1.ac36b441bb8c3p+5; 0x1.13e20ff540896p+7; 0x1.16ec7219220ffp+5; 0x1.727945f9df549p+6; 0x1.b2eca8198f1d4p+5];
  [0x1.ce6e13fd0d068p+9; 0x1.2ff193f6c269ap+7; 0x1.486b860999dcbp+7; 0x1.4e0a3df6db941p+7; 0x1.d54ccc0379314p+9; 0x1.88e4b018611fdp+4; 0x1.8e66666666666p+3; 0x1.3a05e2046c765p+6; 0x1.89cc4588a04d1p+4; 0x1.3bf669ced0b31p+5; 0x1.29aebdd334c5ep+5; 0x1.08a3d816aceabp+4; 0x1.ca3d70a3d70a4p+2; 0x1.3d590de093533p+6; 0x1.3bab7fe08aefbp+4; 0x1.afedd82fd75e2p+5; 0x1.137c200c0f020p+7; 0x1.15462dc6e2a80p+5; 0x1.70d209edbf8bap+6; 0x1.b459620685554p+5];
  [0x1.d83eb7fe08af0p+9; 0x1.321b6805a2d73p+7; 0x1.4f5c280ae1049p+7; 0x1.55fae1ef73c0cp+7; 0x1.db6f5bff04578p+9; 0x1.801159c497742p+4; 0x1.97ae147ae147bp+3; 0x1.39a09fe86833cp+6; 0x1.93524bfd2e947p+4; 0x1.3e7955f78359cp+5; 0x1.2a1125dd095afp+5; 0x1.06b851eb851ecp+4; 0x1.d1eb851eb851fp+2; 0x1.3f7765fd8adacp+6; 0x1.45b95e5aff2a1p+4; 0x1.bff9e83e425afp+5; 0x1.1612b40f66a55p+7; 0x1.1673cddd6e04cp+5; 0x1.76a562174c4cep+6; 0x1.b33db5d894813p+5];
  [0x1.dac0000000000p+9; 0x1.3038b8066c2adp+7; 0x1.5175c209246bfp+7; 0x1.547ae1ef73c0cp+7; 0x1.de3333fc86cecp+9; 0x1.7e04db9c7368bp+4; 0x1.97ae147ae147bp+3; 0x1.384857f3061c8p+6; 0x1.93f4d37c1376dp+4; 0x1.3e7955f78359cp+5; 0x1.2c2489d27c393p+5; 0x1.075c27e953155p+4; 0x1.e5c28f5c28f5cp+2; 0x1.4272b1f687b14p+6; 0x1.3ab65ba6efc37p+4; 0x1.c13db3bfb58d1p+5; 0x1.1720d60a63305p+7; 0x1.17a16df3f9618p+5; 0x1.776eea209aaa4p+6; 0x1.af5cddd6e04c0p+5];
  [0x1.df8e13fd0d068p+9; 0x1.31e383f0bae8ap+7; 0x1.55bd6ffc115dfp+7; 0x1.596b860999dcbp+7; 0x1.e0accc0379314p+9; 0x1.7d12c9d16fc9cp+4; 0x1.9800000000000p+3; 0x1.3514241c3efaep+6; 0x1.9235d9a0f0a5fp+4; 0x1.3ce7820a30db7p+5; 0x1.2d24662bae03bp+5; 0x1.07ae147ae147bp+4; 0x1.d333333333333p+2; 0x1.419fc7e6b3feap+6; 0x1.38518a009f623p+4; 0x1.c244c61d8622cp+5; 0x1.191e8405b39e2p+7; 0x1.186a821f2990fp+5; 0x1.77f1e9f277814p+6; 0x1.a91c25d074214p+5];
  [0x1.dca29003eea21p+9; 0x1.314601ffb480ap+7; 0x1.52f0a3f8982cbp+7; 0x1.5b38520d130e0p+7; 0x1.df9851fc4c166p+9; 0x1.83384230fcf81p+4; 0x1.96b851eb851ecp+3; 0x1.364e09fe86834p+6; 0x1.96a79bbadc098p+4; 0x1.4acb9dc2f405fp+5; 0x1.2cae51d25aab4p+5; 0x1.099999999999ap+4; 0x1.c51eb851eb852p+2; 0x1.4040420f6f08dp+6; 0x1.45e239e6ab9b2p+4; 0x1.c5e7a9e2bcf92p+5; 0x1.1a5a83f4eca68p+7; 0x1.1b5284167a95dp+5; 0x1.7d2e1c15097c8p+6; 0x1.a9e6c7eae5bc8p+5];
  [0x1.dee51dffc547ap+9; 0x1.329a6defc7a3ap+7; 0x1.53eb860999dcbp+7; 0x1.651eb80ecfa6ap+7; 0x1.de8ccc0379314p+9; 0x1.86d831f03d146p+4; 0x1.ad70a3d70a3d7p+3; 0x1.3959be09bb6aap+6; 0x1.9a76d00b45ae6p+4; 0x1.54ff7403dddb1p+5; 0x1.2f8687f455a7dp+5; 0x1.0b5c27e953155p+4; 0x1.c51eb851eb852p+2; 0x1.40c2d40aaeafbp+6; 0x1.3f2e4e26d4802p+4; 0x1.c1df961804d98p+5; 0x1.1cbe21fafc8b0p+7; 0x1.1bdf45e0b4e12p+5; 0x1.7f300218def41p+6; 0x1.ab537e2c55c96p+5];
  [0x1.dbd70a02b8412p+9; 0x1.309e560418937p+7; 0x1.50d709fa54c55p+7; 0x1.656b860999dcbp+7; 0x1.e2b999fe43676p+9; 0x1.81cd23d4f15e8p+4; 0x1.a9eb851eb851fp+3; 0x1.38d61a1db877bp+6; 0x1.98154b8bef8cfp+4; 0x1.579672324c836p+5; 0x1.2fade43ed959ap+5; 0x1.07851dabe2718p+4; 0x1.cc28f5c28f5c3p+2; 0x1.40e0f5e41d4b7p+6; 0x1.42884406c00dap+4; 0x1.c3c5482385404p+5; 0x1.1ae4200c0f020p+7; 0x1.1a7551d68c693p+5; 0x1.7b4a6defc7a3ap+6; 0x1.aad9ebe9c8861p+5];
  [0x1.e4fae2003ab86p+9; 0x1.3468cbf2b239ap+7; 0x1.567ae1ef73c0cp+7; 0x1.65c7adf2ecf20p+7; 0x1.ea6ccc0379314p+9; 0x1.82bf39d1b2e5ap+4; 0x1.aae147ae147aep+3; 0x1.3a1a21ea35936p+6; 0x1.9ebfe9fadafd1p+4; 0x1.582314013ec46p+5; 0x1.2fc19220ff541p+5; 0x1.087ae2541d8e8p+4; 0x1.d28f5c28f5c29p+2; 0x1.41c7f1f9acffap+6; 0x1.486fe82517e78p+4; 0x1.c67553ef6b5d4p+5; 0x1.1ea3cdfefbf40p+7; 0x1.1ac5c1c6088d7p+5; 0x1.8065e80bed741p+6; 0x1.b0277a2cecc81p+5];
  [0x1.e971ec02f2f98p+9; 0x1.343b1209edbf9p+7; 0x1.5875c209246bfp+7; 0x1.66666601bc98ap+7; 0x1.eeca3dff3f0fep+9; 0x1.806209aaa3ad2p+4; 0x1.a75c28f5c28f6p+3; 0x1.387af81626b2fp+6; 0x1.a004fc1df3301p+4; 0x1.609ce9e5e2479p+5; 0x1.2c68a6117720dp+5; 0x1.1051eb851eb85p+4; 0x1.c70a3d70a3d71p+2; 0x1.40909bf9c62a2p+6; 0x1.3f0573a797892p+4; 0x1.d07f63c31df76p+5; 0x1.1e2e67f90d9d7p+7; 0x1.1b2a4c1ebc83bp+5; 0x1.7fb99a1fd156ap+6; 0x1.b4aa6c1a048e0p+5];
  [0x1.e880000000000p+9; 0x1.354d6ffc115dfp+7; 0x1.5900000000000p+7; 0x1.6c2e13f4a98abp+7; 0x1.ef7eb7fe08af0p+9; 0x1.7140e5a35d67cp+4; 0x1.af0a3d70a3d71p+3; 0x1.3e883be6601bdp+6; 0x1.9a4e2e2b8c75cp+4; 0x1.63c0902de00d2p+5; 0x1.2a26b6177ea1cp+5; 0x1.0a66666666666p+4; 0x1.c51eb851eb852p+2; 0x1.41d1fddebd902p+6; 0x1.3adf383f0bae9p+4; 0x1.d2b607c4199fep+5; 0x1.203c3009b3073p+7; 0x1.1bdf45e0b4e12p+5; 0x1.7db4b1ee24357p+6; 0x1.b37a7e3087875p+5];
  [0x1.e64ccc0379314p+9; 0x1.356bec02f2f98p+7; 0x1.572e13f4a98abp+7; 0x1.6e3d6ffc115dfp+7; 0x1.ed9999fe43676p+9; 0x1.70267c6b8b695p+4; 0x1.b666666666666p+3; 0x1.4cc593e5fb720p+6; 0x1.9b93404ea4a8cp+4; 0x1.62cf75d9a0f0ap+5; 0x1.2bb549f94855ep+5; 0x1.0d70a3d70a3d7p+4; 0x1.acccccccccccdp+2; 0x1.42b8fffbce421p+6; 0x1.38f4f61672325p+4; 0x1.c3edbdf8f4730p+5; 0x1.226db20b8066cp+7; 0x1.1dea18372e6a7p+5; 0x1.808e73e681a9cp+6; 0x1.b6a4fa05143bfp+5];
  [0x1.eea0000000000p+9; 0x1.36b630014f8b6p+7; 0x1.597ae1ef73c0cp+7; 0x1.716147f130596p+7; 0x1.f180000000000p+9; 0x1.6b9475a31a4bep+4; 0x1.bc28f5c28f5c3p+3; 0x1.5319bbf0dc769p+6; 0x1.99fce8533b107p+4; 0x1.64d9d5e4a3832p+5; 0x1.294b7dc7abfbap+5; 0x1.0851eb851eb85p+4; 0x1.8f5c28f5c28f6p+2; 0x1.440e78183f91ep+6; 0x1.3e10539fba451p+4; 0x1.b67d7fd82773ep+5; 0x1.24d242070b8d0p+7; 0x1.1e4ea209aaa3bp+5; 0x1.7f6886162f167p+6; 0x1.b862c01e68a0dp+5];
  [0x1.edea3dff3f0fep+9; 0x1.359ebbfd71b04p+7; 0x1.591999fe43676p+7; 0x1.690f5c0767d35p+7; 0x1.f4770a02b8412p+9; 0x1.6b43c5bd0e12fp+4; 0x1.c666666666666p+3; 0x1.5490620ab7132p+6; 0x1.93f4d37c1376dp+4; 0x1.604c8de2ac322p+5; 0x1.17281fd9ba1b2p+5; 0x1.08cccbc05d52cp+4; 0x1.8cccccccccccdp+2; 0x1.4363bc0a06ea0p+6; 0x1.3bfd33d29563bp+4; 0x1.b3cd71f36262dp+5; 0x1.249a1c044284ep+7; 0x1.1d858a32f4491p+5; 0x1.7c0afff36ac64p+6; 0x1.baff67f4dbdf9p+5];
  [0x1.eed70a02b8412p+9; 0x1.3795c209246bfp+7; 0x1.5b7ae1ef73c0cp+7; 0x1.64e66601bc98ap+7; 0x1.f57851fc4c166p+9; 0x1.6a295c853c148p+4; 0x1.c70a3d70a3d71p+3; 0x1.569eefe4ffc98p+6; 0x1.99fce8533b107p+4; 0x1.681191dde3758p+5; 0x1.15e943e100608p+5; 0x1.030a3e7d13511p+4; 0x1.b147ae147ae14p+2; 0x1.434fa7eb6bf44p+6; 0x1.363e6e6538690p+4; 0x1.b390bbf50e347p+5; 0x1.25cc63f141206p+7; 0x1.1d716fc9bc771p+5; 0x1.7b873de1e2de8p+6; 0x1.b904d7f0ed3d8p+5];
  [0x1.f000000000000p+9; 0x1.3d52240314877p+7; 0x1.5d0a3df6db941p+7; 0x1.671eb80ecfa6ap+7; 0x1.f72b86013660ep+9; 0x1.70267c6b8b695p+4; 0x1.c851eb851eb85p+3; 0x1.5323d9ec70004p+6; 0x1.a07ee3d5fdcdfp+4; 0x1.672075f6fd220p+5; 0x1.1991e7d9988d3p+5; 0x1.0400000000000p+4; 0x1.7f5c28f5c28f6p+2; 0x1.44e161e4f7660p+6; 0x1.375c67dfe32a0p+4; 0x1.b2103c07ee0b1p+5; 0x1.2390aa00192a7p+7; 0x1.1a9d89ce4a7b5p+5; 0x1.835e121ee6751p+6; 0x1.b29b9bed30f06p+5];
  [0x1.f0170a02b8412p+9; 0x1.3e7debfa8f7dbp+7; 0x1.6038520d130e0p+7; 0x1.5ea3d7f51efb7p+7; 0x1.f890a400fba88p+9; 0x1.6d789c5e6ff7ep+4; 0x1.c51eb851eb852p+3; 0x1.5416e1deacc92p+6; 0x1.9fdc5c5718eb9p+4; 0x1.6151bbcf4e875p+5; 0x1.1a097bfa4c61ep+5; 0x1.04f5c182ecaefp+4; 0x1.728f5c28f5c29p+2; 0x1.45780a17b0f6bp+6; 0x1.366747d805e5fp+4; 0x1.b002163fdd65ap+5; 0x1.22fc9ff92f2b6p+7; 0x1.1c57edc7ef178p+5; 0x1.827f1800a7c5bp+6; 0x1.af712018a43bbp+5];
  [0x1.f067ae03b3e9ap+9; 0x1.3d1529fe004b8p+7; 0x1.600f5c0767d35p+7; 0x1.6738520d130e0p+7; 0x1.f280000000000p+9; 0x1.6c5e34330d738p+4; 0x1.c23d70a3d70a4p+3; 0x1.5509e7fb267c7p+6; 0x1.a44e18266772dp+4; 0x1.621aa3f034b0ep+5; 0x1.15fd323fee2cap+5; 0x1.0547ae147ae14p+4; 0x1.8333333333333p+2; 0x1.44af2becedd48p+6; 0x1.2f38ca8198f1dp+4; 0x1.b66940357a355p+5; 0x1.23815a07b352bp+7; 0x1.196febd09e12ap+5; 0x1.83f61a1db877bp+6; 0x1.b4fb79d909f1fp+5];
  [0x1.ec3999fe43676p+9; 0x1.359491f2dc2b1p+7; 0x1.5d1eb80ecfa6ap+7; 0x1.63dc280ae1049p+7; 0x1.ed4e13fd0d068p+9; 0x1.739e13b18dac2p+4; 0x1.be66666666666p+3; 0x1.55c02c0a4a05ep+6; 0x1.a5e47021d10b2p+4; 0x1.63e8bc169c23bp+5; 0x1.15d556084a516p+5; 0x1.0733343fa2ad4p+4; 0x1.83d70a3d70a3dp+2; 0x1.449b13dfb0d52p+6; 0x1.2f38ca8198f1dp+4; 0x1.b66940357a355p+5; 0x1.2117adf2ecf20p+7; 0x1.1ca85c24c404ap+5; 0x1.846fbc1acde1ap+6; 0x1.b67c7607c419ap+5];
  [0x1.ee1999fe43676p+9; 0x1.361dc209246bfp+7; 0x1.5df5c209246bfp+7; 0x1.62a3d7f51efb7p+7; 0x1.eb7479fec99f2p+9; 0x1.778eb463497b7p+4; 0x1.b9eb851eb851fp+3; 0x1.59dd45e9185cfp+6; 0x1.af41d3aa369fdp+4; 0x1.65f31c219eb64p+5; 0x1.14aa67e846a5dp+5; 0x1.17ae147ae147bp+4; 0x1.a333333333333p+2; 0x1.460eafee6fb4cp+6; 0x1.2cfcd466f501ap+4; 0x1.b95606317268dp+5; 0x1.21e3ddfc9ff93p+7; 0x1.1e124bfd2e947p+5; 0x1.89fab606b7aa2p+6; 0x1.afeab1d4f9c20p+5];
  [0x1.e43999fe43676p+9; 0x1.35f51bf7ad4b2p+7; 0x1.568a3df6db941p+7; 0x1.5a429003eea21p+7; 0x1.e3266601bc98ap+9; 0x1.5fc2938de6ddfp+4; 0x1.c333333333333p+3; 0x1.5ea68405b39e2p+6; 0x1.af192fb19e732p+4; 0x1.6256ebd4cfd09p+5; 0x1.12687a072d1afp+5; 0x1.0d9999999999ap+4; 0x1.a3d70a3d70a3dp+2; 0x1.46914013ec461p+6; 0x1.2671c432ca57ap+4; 0x1.bad68405b39e2p+5; 0x1.223fc0096feb5p+7; 0x1.1dea18372e6a7p+5; 0x1.894e6601bc98ap+6; 0x1.ad8ad601ffb48p+5];
  [0x1.e5451dffc547ap+9; 0x1.37cda4052d667p+7; 0x1.579999fe43676p+7; 0x1.5b666601bc98ap+7; 0x1.e7f333fc86cecp+9; 0x1.58fbba55d1c3bp+4; 0x1.c800000000000p+3; 0x1.5c00121682f94p+6; 0x1.b75a261bf37b9p+4; 0x1.6cc705c896dd2p+5; 0x1.0f5f42352eb5fp+5; 0x1.04cccbc05d52cp+4; 0x1.7f5c28f5c28f6p+2; 0x1.477840181e03fp+6; 0x1.28adbc664d3bfp+4; 0x1.bfd16fc9bc771p+5; 0x1.22ba43fe5c91dp+7; 0x1.1ce4adff822bcp+5; 0x1.8f8fd21ff2e49p+6; 0x1.ad9f17bd8be73p+5];
  [0x1.e6aa3dff3f0fep+9; 0x1.366f0e0a84be4p+7; 0x1.553333fc86cecp+7; 0x1.5470a3f8982cbp+7; 0x1.e67479fec99f2p+9; 0x1.52d6440f23897p+4; 0x1.8a8f5c28f5c29p+3; 0x1.5dfa600b02928p+6; 0x1.b68ef99806f26p+4; 0x1.621aa3f034b0ep+5; 0x1.04b50a02b8412p+5; 0x1.0028f5c28f5c3p+4; 0x1.70a3d70a3d70ap+2; 0x1.464af20ea5b53p+6; 0x1.208a1dfb9389bp+4; 0x1.b41e63e8dda49p+5; 0x1.239adff822bbfp+7; 0x1.1c077bbf93ff2p+5; 0x1.8ff52c16df3f9p+6; 0x1.acabf3bea91dap+5];
  [0x1.e647ae03b3e9ap+9; 0x1.386b25f633ce6p+7; 0x1.55429003eea21p+7; 0x1.54a3d7f51efb7p+7; 0x1.e6370a02b8412p+9; 0x1.50000b88ca3e8p+4; 0x1.8051eb851eb85p+3; 0x1.5e8821f2990f3p+6; 0x1.b84df266ba494p+4; 0x1.631fd3f5b5fa2p+5; 0x1.062fadf2ecf20p+5; 0x1.061479d4d8341p+4; 0x1.83d70a3d70a3dp+2; 0x1.477840181e03fp+6; 0x1.1acb5675579afp+4; 0x1.ba48dc11e42e1p+5; 0x1.244d87f88765cp+7; 0x1.18baf20ea5b53p+5; 0x1.92ceee0f3cb3ep+6; 0x1.b29b9bed30f06p+5];
  [0x1.fda29003eea21p+9; 0x1.439ccdfaca362p+7; 0x1.63c29003eea21p+7; 0x1.604ccc0379314p+7; 0x1.133ccbff47736p+10; 0x1.47a5c1c6088d7p+4; 0x1.7ae147ae147aep+3; 0x1.5cc075f6fd220p+6; 0x1.b941bfbdf090fp+4; 0x1.5e564628027d9p+5; 0x1.08719bd4067cfp+5; 0x1.00a3d816aceabp+4; 0x1.7000000000000p+2; 0x1.486949e8815e4p+6; 0x1.203867f0aa21ap+4; 0x1.b45b19e731d2ep+5; 0x1.2826bdf4c2b52p+7; 0x1.17a16df3f9618p+5; 0x1.92ed55e6bc622p+6; 0x1.b25ed20296b33p+5];
  [0x1.fc8e13fd0d068p+9; 0x1.4ae581f106680p+7; 0x1.67bd6ffc115dfp+7; 0x1.6b28f605ab3abp+7; 0x1.15b66601bc98ap+10; 0x1.41a8a1dfb938ap+4; 0x1.5c7ae147ae148p+3; 0x1.57ed18090b418p+6; 0x1.b61513f8db489p+4; 0x1.545eb7cbb3c82p+5; 0x1.0518ae31d712ap+5; 0x1.068f5c28f5c29p+4; 0x1.68f5c28f5c28fp+2; 0x1.47be8c0485a0cp+6; 0x1.1e7700474d9c7p+4; 0x1.b5c75bc44bf4dp+5; 0x1.29023df6db941p+7; 0x1.14188fc9363f5p+5; 0x1.9180780fdc161p+6; 0x1.b4aa6c1a048e0p+5];
  [0x1.fc51ec02f2f98p+9; 0x1.4f8047f562175p+7; 0x1.681eb80ecfa6ap+7; 0x1.71c7adf2ecf20p+7; 0x1.1451ebfec13bap+10; 0x1.3db800218def4p+4; 0x1.5fae147ae147bp+3; 0x1.5959a1fd1569fp+6; 0x1.b2bfc43b2dd37p+4; 0x1.514f29d40ee07p+5; 0x1.05f3e5fb71fbcp+5; 0x1.90a3d70a3d70ap+3; 0x1.60a3d70a3d70ap+2; 0x1.46ffba01eeed9p+6; 0x1.2104af922962dp+4; 0x1.ba859210385c6p+5; 0x1.28a65c0b99913p+7; 0x1.136396073de1ep+5; 0x1.8e559ff4fd6d8p+6; 0x1.b20dc5d638866p+5];
  [0x1.0060000000000p+10; 0x1.4b3be20ccff22p+7; 0x1.6d51ec0b56755p+7; 0x1.7428f605ab3abp+7; 0x1.13eb86013660ep+10; 0x1.3b832b990afe6p+4; 0x1.599999999999ap+3; 0x1.5bd79207d4e09p+6; 0x1.b4f8a3b57c4e3p+4; 0x1.527c89f40a287p+5; 0x1.052c9c0a8d21cp+5; 0x1.819999999999ap+3; 0x1.4851eb851eb85p+2; 0x1.4909fe004b7f6p+6; 0x1.26200e27e0efap+4; 0x1.bac245f5ad96ap+5; 0x1.28e39c0ebedfap+7; 0x1.14f5bdd76683cp+5; 0x1.8f8fd21ff2e49p+6; 0x1.b459620685554p+5];
  [0x1.00651dffc547ap+10; 0x1.4da7c200c0f02p+7; 0x1.65d709fa54c55p+7; 0x1.719eb80ecfa6ap+7; 0x1.118e14013ec46p+10; 0x1.3a4067cf1c326p+4; 0x1.5b33333333333p+3; 0x1.5f3e6601bc98ap+6; 0x1.ba5e30014f8b6p+4; 0x1.4e53b5bf6a0dcp+5; 0x1.02374ff865d7dp+5; 0x1.78f5c28f5c28fp+3; 0x1.5b851eb851eb8p+2; 0x1.47b4801f75105p+6; 0x1.1d302a3486f05p+4; 0x1.c545c5f7c675ap+5; 0x1.279cea077036dp+7; 0x1.1687e7c06e19cp+5; 0x1.9236e3f78bbd4p+6; 0x1.b24a8fc0d2c38p+5];
  [0x1.021eb7fe08af0p+10; 0x1.565e4c0df58c1p+7; 0x1.65d709fa54c55p+7; 0x1.6e6b860999dcbp+7; 0x1.15e66601bc98ap+10; 0x1.3d67503b81b65p+4; 0x1.63d70a3d70a3dp+3; 0x1.62b979e16d6dcp+6; 0x1.b993037d63023p+4; 0x1.4c4957cd466f5p+5; 0x1.033a63f9a49c3p+5; 0x1.73851eb851eb8p+3; 0x1.4ae147ae147aep+2; 0x1.4654fdf3b645ap+6; 0x1.2156638433d6cp+4; 0x1.c1f3d20f2becfp+5; 0x1.29afcbf6e3f79p+7; 0x1.173ce2089e343p+5; 0x1.9180780fdc161p+6; 0x1.bb78f81e8a2ecp+5];
  [0x1.007999fe43676p+10; 0x1.59d775fb2edfep+7; 0x1.685709fa54c55p+7; 0x1.77ae13f4a98abp+7; 0x1.182a3dff3f0fep+10; 0x1.3d3ef5a964e8bp+4; 0x1.7dc28f5c28f5cp+3; 0x1.5ed9220ff5409p+6; 0x1.b876965f5275fp+4; 0x1.4ab785f8d2e51p+5; 0x1.ff9b0ff10ecb7p+4; 0x1.80a3d70a3d70ap+3; 0x1.4f5c28f5c28f6p+2; 0x1.4891761459536p+6; 0x1.32182fd75e204p+4; 0x1.bdc345cfede98p+5; 0x1.2b482c0a4a05ep+7; 0x1.156e642bf9831p+5; 0x1.8f01ec0b56755p+6; 0x1.bfbf202107b78p+5];
  [0x1.02551dffc547ap+10; 0x1.5af3fc0096febp+7; 0x1.6880000000000p+7; 0x1.79051e108c3f4p+7; 0x1.18cae2003ab86p+10; 0x1.3e81ba7fc32ecp+4; 0x1.819999999999ap+3; 0x1.5fd64a16a4873p+6; 0x1.af6a7589efd87p+4; 0x1.474385c67dfe3p+5; 0x1.017008205ff1ep+5; 0x1.7c28f5c28f5c3p+3; 0x1.4000000000000p+2; 0x1.47e6ba0620ab7p+6; 0x1.2ebe39f77292cp+4; 0x1.b3cd71f36262dp+5; 0x1.2b0aea0fd3b2ap+7; 0x1.15bed41b75a75p+5; 0x1.86f86a098915cp+6; 0x1.c4e42bf9830e4p+5];
  [0x1.03f66601bc98ap+10; 0x1.5dca91fb3fa6ep+7; 0x1.671eb80ecfa6ap+7; 0x1.73cccc0379314p+7; 0x1.1b3852007dd44p+10; 0x1.3d16a055757d6p+4; 0x1.76b851eb851ecp+3; 0x1.6504ca0c282c7p+6; 0x1.a939bfdf7e804p+4; 0x1.4a7b41bfbdf09p+5; 0x1.04516440f2389p+5; 0x1.7f0a3d70a3d71p+3; 0x1.2cccccccccccdp+2; 0x1.477840181e03fp+6; 0x1.29284be40420fp+4; 0x1.bf0711d798d8bp+5; 0x1.2b0aea0fd3b2ap+7; 0x1.15969c23b7953p+5; 0x1.82935dedf1e08p+6; 0x1.ca5a41e57d9dcp+5];
  [0x1.01d0a400fba88p+10; 0x1.5d13a7fc32ebep+7; 0x1.669999fe43676p+7; 0x1.72429003eea21p+7; 0x1.1a4852007dd44p+10; 0x1.3b0a222d5171ep+4; 0x1.63d70a3d70a3dp+3; 0x1.652d4bf0995abp+6; 0x1.a476bc1eff9f8p+4; 0x1.4a7b41bfbdf09p+5; 0x1.08ad65e460675p+5; 0x1.8051eb851eb85p+3; 0x1.2666666666666p+2; 0x1.496e6c093d966p+6; 0x1.2da03e63e8ddap+4; 0x1.ba20642396074p+5; 0x1.29afcbf6e3f79p+7; 0x1.1703dddb1209fp+5; 0x1.828939eadd591p+6; 0x1.c5ffd82773e25p+5];
  [0x1.010479fec99f2p+10; 0x1.5bebe5fb71fbcp+7; 0x1.64eb860999dcbp+7; 0x1.74d1ec0b56755p+7; 0x1.19566601bc98ap+10; 0x1.42eb65a9a8049p+4; 0x1.6851eb851eb85p+3; 0x1.67a117f84449ep+6; 0x1.a4c801f75104dp+4; 0x1.4ecc41dd1a21fp+5; 0x1.0a63d3e4ef028p+5; 0x1.90a3d70a3d70ap+3; 0x1.247ae147ae148p+2; 0x1.4866e008e9b39p+6; 0x1.32e4766c6de76p+4; 0x1.c00e25c810a57p+5; 0x1.2a2f6a0dbad3ap+7; 0x1.16db480a5accdp+5; 0x1.820f9c1f85d74p+6; 0x1.c377763e4abe7p+5];
  [0x1.0070000000000p+10; 0x1.5a86f3f52fc26p+7; 0x1.658a3df6db941p+7; 0x1.711479f666235p+7; 0x1.1a4ae2003ab86p+10; 0x1.2bc0a5accd530p+4; 0x1.62e147ae147aep+3; 0x1.67e7fa1a0cf18p+6; 0x1.a30906034f3fep+4; 0x1.55f08a265f0f6p+5; 0x1.0a002e2328f9fp+5; 0x1.8570a3d70a3d7p+3; 0x1.07ae147ae147bp+2; 0x1.48342fe82517ep+6; 0x1.2884dfce3150ep+4; 0x1.c259042d8c2a4p+5; 0x1.2a7bfdf7e8039p+7; 0x1.17cec9e236c16p+5; 0x1.8372580c308ffp+6; 0x1.c04cf63800219p+5];
  [0x1.0080000000000p+10; 0x1.5549dc0db2703p+7; 0x1.6423d7f51efb7p+7; 0x1.6b9479f666235p+7; 0x1.1c35c200c0f02p+10; 0x1.1a19fa11a975bp+4; 0x1.63d70a3d70a3dp+3; 0x1.684d3bf2f5558p+6; 0x1.a07ee3d5fdcdfp+4; 0x1.517759ee88df3p+5; 0x1.067f65dbfceb8p+5; 0x1.84ccccccccccdp+3; 0x1.e7ae147ae147bp+1; 0x1.45a154003254ep+6; 0x1.14e3b256ffc11p+4; 0x1.c42a761027957p+5; 0x1.2b00b3f63c31ep+7; 0x1.18712018a43bbp+5; 0x1.811c57e23f24ep+6; 0x1.c29891e215337p+5];
  [0x1.fe7479fec99f2p+9; 0x1.50c97204295a7p+7; 0x1.63e66601bc98ap+7; 0x1.6af5c209246bfp+7; 0x1.19ac27fe4bcaep+10; 0x1.1fc667f90d9d7p+4; 0x1.623d70a3d70a4p+3; 0x1.6351600f34507p+6; 0x1.a939bfdf7e804p+4; 0x1.505e1437c5693p+5; 0x1.0732bfdb4cc25p+5; 0x1.8d1eb851eb852p+3; 0x1.0ae147ae147aep+2; 0x1.418d4801f7510p+6; 0x1.10949a5657fb7p+4; 0x1.c4f4d1e96c3fcp+5; 0x1.27c5bff04577ep+7; 0x1.184889c1b5419p+5; 0x1.84c0d1fa33376p+6; 0x1.c32729f59ccfbp+5];
  [0x1.0220000000000p+10; 0x1.54cf7c02afddbp+7; 0x1.672e13f4a98abp+7; 0x1.72dc280ae1049p+7; 0x1.1c528fffbce42p+10; 0x1.1f9e0f7fcfc40p+4; 0x1.6800000000000p+3; 0x1.8a0aac1094a2cp+6; 0x1.a8bfd82773e25p+4; 0x1.562ccdd93c46ep+5; 0x1.0cb9b024f6599p+5; 0x1.9851eb851eb85p+3; 0x1.247ae147ae148p+2; 0x1.3efa6c1a048e0p+6; 0x1.127edd8b60f1bp+4; 0x1.b4c047d3d4281p+5; 0x1.2bc2afff36ac6p+7; 0x1.19de61cffeb07p+5; 0x1.85dc9de050375p+6; 0x1.c7731e3a7daa5p+5];
  [0x1.fd8b86013660ep+9; 0x1.52eb0df9bdc6ap+7; 0x1.6600000000000p+7; 0x1.72429003eea21p+7; 0x1.1a7852007dd44p+10; 0x1.1efcad9ad85e0p+4; 0x1.6c28f5c28f5c3p+3; 0x1.81899806f2629p+6; 0x1.a686f9b994e1ap+4; 0x1.585f5be5d9e41p+5; 0x1.0ca5c03361566p+5; 0x1.a28f5c28f5c29p+3; 0x1.0eb851eb851ecp+2; 0x1.3db60e0eb67c3p+6; 0x1.1fbdd97f62b6bp+4; 0x1.b95606317268dp+5; 0x1.2925fa00e27e1p+7; 0x1.185cd3e0bd44ap+5; 0x1.848e23f24d8fdp+6; 0x1.c4fba7fc32ebep+5];
  [0x1.fd30a400fba88p+9; 0x1.52945e0b4e11ep+7; 0x1.657ae1ef73c0cp+7; 0x1.7800000000000p+7; 0x1.1993d801b4352p+10; 0x1.1b5cbddb9841bp+4; 0x1.6ae147ae147aep+3; 0x1.8193b81b64e05p+6; 0x1.a86e946801712p+4; 0x1.603876188b114p+5; 0x1.0da8d434a01acp+5; 0x1.ae147ae147ae1p+3; 0x1.00a3d70a3d70ap+2; 0x1.3ef049ecb31c2p+6; 0x1.141769a91105ep+4; 0x1.bd7255f3519bdp+5; 0x1.2a39a005c4652p+7; 0x1.18343e1006078p+5; 0x1.87fff0025bfadp+6; 0x1.c4073a365cb36p+5];
  [0x1.029f5bff04578p+10; 0x1.58dfb80a9de8bp+7; 0x1.6bb8520d130e0p+7; 0x1.7dcccc0379314p+7; 0x1.1cdf5bff04578p+10; 0x1.18ff8fcd67fd4p+4; 0x1.6cccccccccccdp+3; 0x1.7dc79fec99f1bp+6; 0x1.a845f06f69446p+4; 0x1.60ed4801f7510p+5; 0x1.0b3f0c34c1a8bp+5; 0x1.9b33333333333p+3; 0x1.f1eb851eb851fp+1; 0x1.4034a5df2239ep+6; 0x1.122d27807789ap+4; 0x1.bb2778140dd40p+5; 0x1.301b81f969e3dp+7; 0x1.19b5cbff47736p+5; 0x1.87aed9dfdac69p+6; 0x1.c79bd9cae2110p+5];
  [0x1.02fd7000431bep+10; 0x1.5c7fc80841edep+7; 0x1.69bd6ffc115dfp+7; 0x1.7bae13f4a98abp+7; 0x1.210a3dff3f0fep+10; 0x1.1e0a99b6f5cafp+4; 0x1.6bd70a3d70a3dp+3; 0x1.7d5840181e03fp+6; 0x1.a7298244e93e2p+4; 0x1.5b9717df19d67p+5; 0x1.0f73300de4c51p+5; 0x1.a2e147ae147aep+3; 0x1.e666666666666p+1; 0x1.411dc7ef177a7p+6; 0x1.1a50c5eb313bep+4; 0x1.be8da7f3cf701p+5; 0x1.2d984ff43419ep+7; 0x1.18d695d91ab8fp+5; 0x1.8688e9f6a93f3p+6; 0x1.c6a769ec2ce46p+5];
  [0x1.042709fe86834p+10; 0x1.5c84dfefbf402p+7; 0x1.6d8f5c0767d35p+7; 0x1.7e6147f130596p+7; 0x1.2880000000000p+10; 0x1.1eabffcdab192p+4; 0x1.6c28f5c28f5c3p+3; 0x1.7e2ce2089e343p+6; 0x1.a60d141a6937dp+4; 0x1.5ceca3e7d1351p+5; 0x1.0efb9e060fe48p+5; 0x1.9fae147ae147bp+3; 0x1.e8f5c28f5c28fp+1; 0x1.426225fa658c5p+6; 0x1.15356861e9292p+4; 0x1.c295ba2be058ap+5; 0x1.3090e9f6a93f3p+7; 0x1.195057d1782d4p+5; 0x1.8544940bbb1f2p+6; 0x1.c3f2da122fad7p+5];
  [0x1.078d7000431bep+10; 0x1.5ac423fab10bap+7; 0x1.6e0f5c0767d35p+7; 0x1.780f5c0767d35p+7; 0x1.2af51dffc547ap+10; 0x1.1d91947cfa26ap+4; 0x1.719999999999ap+3; 0x1.7e2ce2089e343p+6; 0x1.a60d141a6937dp+4; 0x1.5aa5fe1112770p+5; 0x1.0df88c1db0143p+5; 0x1.95c28f5c28f5cp+3; 0x1.f333333333333p+1; 0x1.4127ebf22c01ep+6; 0x1.19ad59d55e6bcp+4; 0x1.c2be321a2e7f7p+5; 0x1.3106540cc78eap+7; 0x1.195057d1782d4p+5; 0x1.83b94c0160525p+6; 0x1.bcddf7e8038a0p+5];
  [0x1.05da3dff3f0fep+10; 0x1.58bc080f98fa3p+7; 0x1.6cd709fa54c55p+7; 0x1.756147f130596p+7; 0x1.2a666601bc98ap+10; 0x1.222396073de1ep+4; 0x1.6570a3d70a3d7p+3; 0x1.7ec4c61d8622cp+6; 0x1.b6b79c842fa51p+4; 0x1.6088d434a01acp+5; 0x1.13bb41bfbdf09p+5; 0x1.9c28f5c28f5c3p+3; 0x1.0ae147ae147aep+2; 0x1.435f8df7a4e7bp+6; 0x1.1ef191dde3758p+4; 0x1.cae2962cfd8f1p+5; 0x1.337518090b418p+7; 0x1.1c2ad81adea89p+5; 0x1.914dca07f66e8p+6; 0x1.c2d5ae1cde5d2p+5];
  [0x1.fed479fec99f2p+9; 0x1.519567fd3f5b6p+7; 0x1.5e429003eea21p+7; 0x1.67d1ec0b56755p+7; 0x1.22514801f7510p+10; 0x1.233e004b7f5a5p+4; 0x1.5a8f5c28f5c29p+3; 0x1.81e4b7f5a5333p+6; 0x1.c0e02b841248dp+4; 0x1.57d2ba16e7a31p+5; 0x1.1bfbb40b34e77p+5; 0x1.b23d70a3d70a4p+3; 0x1.0d70a3d70a3d7p+2; 0x1.45bfbc1acde1ap+6; 0x1.1f4347e8ccdd9p+4; 0x1.d10d0fe8ab4fap+5; 0x1.27cff609dcf89p+7; 0x1.1f055c0fcb4f2p+5; 0x1.9aafe7e1fc090p+6; 0x1.c9991600f3450p+5];
  [0x1.feb479fec99f2p+9; 0x1.564debfa8f7dbp+7; 0x1.625c280ae1049p+7; 0x1.6228f605ab3abp+7; 0x1.2630000000000p+10; 0x1.203f727136a40p+4; 0x1.5c7ae147ae148p+3; 0x1.8096940357a35p+6; 0x1.c108fa7a85016p+4; 0x1.522c2bd7f51f0p+5; 0x1.1b346a1a500d6p+5; 0x1.a947ae147ae14p+3; 0x1.051eb851eb852p+2; 0x1.49c9a5ebb773ap+6; 0x1.1f94fdf3b645ap+4; 0x1.d7378811b1d93p+5; 0x1.2c0a27f1b6912p+7; 0x1.1f6ad1d041cc5p+5; 0x1.9dd09bf9c62a2p+6; 0x1.cc108c3f3e037p+5];
  [0x1.f915c200c0f02p+9; 0x1.54b5fbf83382ep+7; 0x1.5e3333fc86cecp+7; 0x1.5d38520d130e0p+7; 0x1.22966601bc98ap+10; 0x1.19c94812be48ap+4; 0x1.575c28f5c28f6p+3; 0x1.811013ec460eep+6; 0x1.bfeb53d640e9dp+4; 0x1.4fd171e29b6b3p+5; 0x1.1c238e29f9ce9p+5; 0x1.a4ccccccccccdp+3; 0x1.ef5c28f5c28f6p+1; 0x1.4a75f5f0b2852p+6; 0x1.273e09bb6aa4cp+4; 0x1.dd110c2c5e2cep+5; 0x1.2a7bfdf7e8039p+7; 0x1.20217225b749bp+5; 0x1.9ee245f5ad96ap+6; 0x1.c816124074645p+5];
  [0x1.f3570a02b8412p+9; 0x1.523895f2452c6p+7; 0x1.56f0a3f8982cbp+7; 0x1.5328f605ab3abp+7; 0x1.1b7ccbff47736p+10; 0x1.1ae3b57c4e2f3p+4; 0x1.40f5c28f5c28fp+3; 0x1.7fb7cbf6e3f79p+6; 0x1.cf38c868b9fdcp+4; 0x1.51dbce4217d28p+5; 0x1.22220ff540896p+5; 0x1.ab33333333333p+3; 0x1.f70a3d70a3d71p+1; 0x1.4ae57603925bbp+6; 0x1.1d302a3486f05p+4; 0x1.ee7524399b2c4p+5; 0x1.1e0073ffac1d3p+7; 0x1.1dd4fbdad7519p+5; 0x1.a76f8bdec5f39p+6; 0x1.d38b463497b74p+5];
  [0x1.f69333fc86cecp+9; 0x1.51e7000431bdfp+7; 0x1.59a8f605ab3abp+7; 0x1.51eb860999dcbp+7; 0x1.1d6479fec99f2p+10; 0x1.17e525892684dp+4; 0x1.3d1eb851eb852p+3; 0x1.82f61fe21d96fp+6; 0x1.cd264c2f837b5p+4; 0x1.4fe5881a15550p+5; 0x1.1c8731d2e0e30p+5; 0x1.a051eb851eb85p+3; 0x1.051eb851eb852p+2; 0x1.48342fe82517ep+6; 0x1.13c5b5b70691fp+4; 0x1.e9f3a3ec02f30p+5; 0x1.216441fea8113p+7; 0x1.1a6c6de76427cp+5; 0x1.a290dfdef8488p+6; 0x1.d828b5cbff477p+5];
  [0x1.fd30a400fba88p+9; 0x1.50a5bdf8f4730p+7; 0x1.601eb80ecfa6ap+7; 0x1.59429003eea21p+7; 0x1.20166601bc98ap+10; 0x1.1651b1d92b7fep+4; 0x1.4000000000000p+3; 0x1.80c933e35c5b5p+6; 0x1.c886e3b46fdebp+4; 0x1.4acb9dc2f405fp+5; 0x1.191a57eaa2a0bp+5; 0x1.9c7ae147ae148p+3; 0x1.08f5c28f5c28fp+2; 0x1.45c9e01de2691p+6; 0x1.0753005814941p+4; 0x1.e4a04e1e71045p+5; 0x1.25f53804534bdp+7; 0x1.19de61cffeb07p+5; 0x1.9f702c0a4a05ep+6; 0x1.d7ae7ddca4b12p+5];
  [0x1.01bb86013660ep+10; 0x1.5143d4067cf1cp+7; 0x1.6847adf2ecf20p+7; 0x1.5cf0a3f8982cbp+7; 0x1.21f28fffbce42p+10; 0x1.171b6a1e81cb4p+4; 0x1.4147ae147ae14p+3; 0x1.80d36006d0d4ap+6; 0x1.cac232096787dp+4; 0x1.4cc67620ee8d1p+5; 0x1.1991e7d9988d3p+5; 0x1.a8f5c28f5c28fp+3; 0x1.1ae147ae147aep+2; 0x1.46db8e086bdf5p+6; 0x1.fd17f1f9acffap+3; 0x1.e8c26c3b927d4p+5; 0x1.2a017a02fb5d0p+7; 0x1.19649fd7a13c2p+5; 0x1.9e35f9df548edp+6; 0x1.d69151e75360dp+5];
  [0x1.03433400b88cap+10; 0x1.515d5000c953ap+7; 0x1.6600000000000p+7; 0x1.633d6ffc115dfp+7; 0x1.2280000000000p+10; 0x1.171b6a1e81cb4p+4; 0x1.3e147ae147ae1p+3; 0x1.7fe9420b3d4aep+6; 0x1.cf0ffa7eb6bf4p+4; 0x1.4cc67620ee8d1p+5; 0x1.1dedea033e78ep+5; 0x1.b428f5c28f5c3p+3; 0x1.128f5c28f5c29p+2; 0x1.474b0e1b4bb5ep+6; 0x1.009f15a4acf31p+4; 0x1.fb0a8fc0d2c38p+5; 0x1.2ae2140570825p+7; 0x1.1b4ba40d90e24p+5; 0x1.a365b81301648p+6; 0x1.d259bc33f8551p+5];
  [0x1.04466601bc98ap+10; 0x1.57f00e0653006p+7; 0x1.661479f666235p+7; 0x1.669479f666235p+7; 0x1.243ae2003ab86p+10; 0x1.162958537e2c5p+4; 0x1.451eb851eb852p+3; 0x1.816c11e42e126p+6; 0x1.cd4f1c3265adep+4; 0x1.4a00dfdef8488p+5; 0x1.1f40b5ed8d36bp+5; 0x1.b000000000000p+3; 0x1.1000000000000p+2; 0x1.48c219eb6390dp+6; 0x1.0a841bb8c32a9p+4; 0x1.f9b0a1be2b496p+5; 0x1.2cdb73f316e37p+7; 0x1.1f055c0fcb4f2p+5; 0x1.a22b85e80bed7p+6; 0x1.d602bbecaab8ap+5];
  [0x1.041eb7fe08af0p+10; 0x1.56016df3f9618p+7; 0x1.61eb860999dcbp+7; 0x1.5d47adf2ecf20p+7; 0x1.23451dffc547ap+10; 0x1.1a42517e77d52p+4; 0x1.3cccccccccccdp+3; 0x1.8081eff9f87f0p+6; 0x1.d35dc4007570cp+4; 0x1.48e50bd87b56cp+5; 0x1.28982235b4edbp+5; 0x1.b2e147ae147aep+3; 0x1.0000000000000p+2; 0x1.47b06c00da1a9p+6; 0x1.04ee2da554b8cp+4; 0x1.f8e5260f5e41dp+5; 0x1.301667f90d9d7p+7; 0x1.21f42c3c9eeccp+5; 0x1.a70a301216830p+6; 0x1.d79a1fd1569f5p+5];
  [0x1.042709fe86834p+10; 0x1.5724180d3cff6p+7; 0x1.649999fe43676p+7; 0x1.60f0a3f8982cbp+7; 0x1.230852007dd44p+10; 0x1.17e525892684dp+4; 0x1.43851eb851eb8p+3; 0x1.84b8f3eccc469p+6; 0x1.cbb709b738e6dp+4; 0x1.47dd7dbf487fdp+5; 0x1.282091c087443p+5; 0x1.b3d70a3d70a3dp+3; 0x1.00a3d70a3d70ap+2; 0x1.491d5410f94c8p+6; 0x1.032cc5fbf8338p+4; 0x1.ffcf75d9a0f0ap+5; 0x1.2e78ec0f88334p+7; 0x1.226dea033e78ep+5; 0x1.a1bc07ee0b0afp+6; 0x1.d95a41e57d9dcp+5];
  [0x1.064999fe43676p+10; 0x1.570a9802c0a4ap+7; 0x1.64c7adf2ecf20p+7; 0x1.5780000000000p+7; 0x1.2590a400fba88p+10; 0x1.1600ffda4052dp+4; 0x1.4428f5c28f5c3p+3; 0x1.8237a5f41aef7p+6; 0x1.c9f6284599674p+4; 0x1.4331561911490p+5; 0x1.25cab606b7aa2p+5; 0x1.ba3d70a3d70a4p+3; 0x1.ef5c28f5c28f6p+1; 0x1.483e53eb399f6p+6; 0x1.feffe4bcad9aep+3; 0x1.fab929ed3953ep+5; 0x1.2ef3700474d9cp+7; 0x1.2100a7c5ac472p+5; 0x1.9e5e83e425aeep+6; 0x1.db0603d577964p+5];
  [0x1.0a0c27fe4bcaep+10; 0x1.5a86f3f52fc26p+7; 0x1.685c280ae1049p+7; 0x1.5b1999fe43676p+7; 0x1.26c8f601797ccp+10; 0x1.18d73860999ddp+4; 0x1.4947ae147ae14p+3; 0x1.82234c1a8ac5cp+6; 0x1.cee72da122fadp+4; 0x1.444d2a1f8e3acp+5; 0x1.29af240fa9c13p+5; 0x1.e570a3d70a3d7p+3; 0x1.ea3d70a3d70a4p+1; 0x1.48c219eb6390dp+6; 0x1.f37eb28d8665ep+3; 0x1.0399ee02a77a3p+6; 0x1.31e1d1f601798p+7; 0x1.26de4606748e4p+5; 0x1.a43a9003eea21p+6; 0x1.cfcdea033e78ep+5];
  [0x1.0d48f601797ccp+10; 0x1.5f68420f6f08dp+7; 0x1.69a3d7f51efb7p+7; 0x1.5abd6ffc115dfp+7; 0x1.29a51dffc547ap+10; 0x1.17e525892684dp+4; 0x1.5f5c28f5c28f6p+3; 0x1.854775fb2edfep+6; 0x1.d5eaac1094a2cp+4; 0x1.4dce05ccc89b1p+5; 0x1.2b659210385c6p+5; 0x1.f4ccccccccccdp+3; 0x1.f5c28f5c28f5cp+1; 0x1.4866e008e9b39p+6; 0x1.fc7166e008e9bp+3; 0x1.0a51600f34507p+6; 0x1.3152e40852b4ep+7; 0x1.265039ef0f16fp+5; 0x1.a779ae0c17657p+6; 0x1.cdbc4e2f37fbfp+5];
  [0x1.0bab86013660ep+10; 0x1.5ba99bf5946c3p+7; 0x1.67051e108c3f4p+7; 0x1.568f5c0767d35p+7; 0x1.28d852007dd44p+10; 0x1.15374794ea077p+4; 0x1.5e66666666666p+3; 0x1.88db9a176ddadp+6; 0x1.d57042528ae75p+4; 0x1.507f562174c4dp+5; 0x1.28347e06961c3p+5; 0x1.edc28f5c28f5cp+3; 0x1.ee147ae147ae1p+1; 0x1.466c0df58c08bp+6; 0x1.f5bb5e0f7fcfcp+3; 0x1.05824bfd2e947p+6; 0x1.2e73cff64cf8dp+7; 0x1.24ceabffcdab2p+5; 0x1.a5b1960fa15dbp+6; 0x1.cd938fffbce42p+5];
  [0x1.0a3ccbff47736p+10; 0x1.5b48b9fdbd2fap+7; 0x1.63c7adf2ecf20p+7; 0x1.5947adf2ecf20p+7; 0x1.2667adff822bcp+10; 0x1.130271fff79c8p+4; 0x1.5f5c28f5c28f6p+3; 0x1.88a8b3f63c31ep+6; 0x1.d5eaac1094a2cp+4; 0x1.50bc25d074214p+5; 0x1.2c18ee2867275p+5; 0x1.e570a3d70a3d7p+3; 0x1.e666666666666p+1; 0x1.481fec13b9f12p+6; 0x1.f93f4cb1897a6p+3; 0x1.0934801f75105p+6; 0x1.2dfe69f05ea25p+7; 0x1.2100a7c5ac472p+5; 0x1.a43a9003eea21p+6; 0x1.cb5938151a438p+5];
  [0x1.09e852007dd44p+10; 0x1.5c9945f9df549p+7; 0x1.62e66601bc98ap+7; 0x1.5ea3d7f51efb7p+7; 0x1.25b0a400fba88p+10; 0x1.135321e603d57p+4; 0x1.5c7ae147ae148p+3; 0x1.85ea53fc00970p+6; 0x1.db561c36976bcp+4; 0x1.4de24c404a72fp+5; 0x1.2eaa93f290abbp+5; 0x1.f051eb851eb85p+3; 0x1.e3d70a3d70a3dp+1; 0x1.4c0147f130596p+6; 0x1.07a6202539757p+4; 0x1.0a9897e996313p+6; 0x1.2c28c80410300p+7; 0x1.1f423e1869835p+5; 0x1.aaeb7a1c25d07p+6; 0x1.ca27ae147ae14p+5];
  [0x1.0907adff822bcp+10; 0x1.5c9945f9df549p+7; 0x1.62666601bc98ap+7; 0x1.609479f666235p+7; 0x1.241709fe86834p+10; 0x1.13cc2a454de7fp+4; 0x1.5147ae147ae14p+3; 0x1.868304039abf3p+6; 0x1.dc4af1cb89d6bp+4; 0x1.4cc67620ee8d1p+5; 0x1.2f2223e186983p+5; 0x1.f000000000000p+3; 0x1.e147ae147ae14p+1; 0x1.4c7ae9ee45c36p+6; 0x1.07027fa1a0cf2p+4; 0x1.0ab71de69ad43p+6; 0x1.2ccc22036006dp+7; 0x1.1e774ff865d7dp+5; 0x1.a96a51e321a2ep+6; 0x1.c7ed5410f94c8p+5];
  [0x1.082f5bff04578p+10; 0x1.53c13a0c6b485p+7; 0x1.5ffae1ef73c0cp+7; 0x1.58a8f605ab3abp+7; 0x1.2630a400fba88p+10; 0x1.14974a3400b89p+4; 0x1.4eb851eb851ecp+3; 0x1.8a4a0dfdef848p+6; 0x1.dab2e275ab7dcp+4; 0x1.4b0870110a138p+5; 0x1.30114c22ee419p+5; 0x1.f51eb851eb852p+3; 0x1.e28f5c28f5c29p+1; 0x1.4c850df15a4adp+6; 0x1.0f7a7fc32ebe6p+4; 0x1.0e54f7ec3547ep+6; 0x1.2da7a00e27e0fp+7; 0x1.1f055c0fcb4f2p+5; 0x1.a7b6801711948p+6; 0x1.c6a769ec2ce46p+5];
  [0x1.0657adff822bcp+10; 0x1.53d085f4a1273p+7; 0x1.633d6ffc115dfp+7; 0x1.59f0a3f8982cbp+7; 0x1.2790a400fba88p+10; 0x1.13cc2a454de7fp+4; 0x1.50f5c28f5c28fp+3; 0x1.8aafd9fd36f7ep+6; 0x1.d9e6d7a56de33p+4; 0x1.472705c896dd2p+5; 0x1.2ebe80389f83cp+5; 0x1.f75c28f5c28f6p+3; 0x1.dc28f5c28f5c3p+1; 0x1.4c33f5f91600fp+6; 0x1.0effc86cebbbap+4; 0x1.0faee41919ac8p+6; 0x1.2de4e2089e343p+7; 0x1.1ff8dde7a743ap+5; 0x1.a8813404ea4a9p+6; 0x1.c7b037d63022ep+5];
  [0x1.0608f601797ccp+10; 0x1.54c54801f7510p+7; 0x1.63d709fa54c55p+7; 0x1.589999fe43676p+7; 0x1.28866601bc98ap+10; 0x1.137aebc408d8fp+4; 0x1.519999999999ap+3; 0x1.8b3e5c0b99913p+6; 0x1.db047e49b1facp+4; 0x1.47b4efcbd5561p+5; 0x1.31006e19b90ebp+5; 0x1.f0a3d70a3d70ap+3; 0x1.ccccccccccccdp+1; 0x1.4cad97f62b6aep+6; 0x1.1962a5e785b5bp+4; 0x1.0febf01322f27p+6; 0x1.2ea1c3efae792p+7; 0x1.204a07f66e86cp+5; 0x1.aac2edfe75bc4p+6; 0x1.cbfc2e33eff19p+5];
  [0x1.059999fe43676p+10; 0x1.5115edf1e0829p+7; 0x1.60eb860999dcbp+7; 0x1.58dc280ae1049p+7; 0x1.245e14013ec46p+10; 0x1.14e889c1b5419p+4; 0x1.48f5c28f5c28fp+3; 0x1.88a8b3f63c31ep+6; 0x1.d68de7ea5f84dp+4; 0x1.449e43ed959a3p+5; 0x1.2eaa93f290abbp+5; 0x1.cdc28f5c28f5cp+3; 0x1.ca3d70a3d70a4p+1; 0x1.4b2c69f8c21e2p+6; 0x1.1098d5842b735p+4; 0x1.101ecfe9b7bf2p+6; 0x1.2dd0780fdc161p+7; 0x1.1f19a7c17a893p+5; 0x1.a76569f490603p+6; 0x1.c8f621fafc8b0p+5];
  [0x1.0a40000000000p+10; 0x1.571efbf401c50p+7; 0x1.6ad709fa54c55p+7; 0x1.6f4ccc0379314p+7; 0x1.2940a400fba88p+10; 0x1.1d5197a24894cp+4; 0x1.5f5c28f5c28f6p+3; 0x1.8805d41fa7653p+6; 0x1.dc9c8fb86f47bp+4; 0x1.4b0870110a138p+5; 0x1.2c0501e2584f5p+5; 0x1.e0f5c28f5c28fp+3; 0x1.e3d70a3d70a3dp+1; 0x1.50ad5e071c53fp+6; 0x1.1e56b65a9a805p+4; 0x1.12dcd5f99c38bp+6; 0x1.2ee93c03bc4d2p+7; 0x1.20d8140dd3fe2p+5; 0x1.ab6517e77d524p+6; 0x1.ca8d85dfa871ap+5];
  [0x1.0e9eb7fe08af0p+10; 0x1.570fb00bcbe62p+7; 0x1.715709fa54c55p+7; 0x1.7000000000000p+7; 0x1.2d0ccbff47736p+10; 0x1.200433d6c7219p+4; 0x1.719999999999ap+3; 0x1.8b714013ec461p+6; 0x1.db047e49b1facp+4; 0x1.531c5de9c022ap+5; 0x1.25175c0767d35p+5; 0x1.f70a3d70a3d71p+3; 0x1.e147ae147ae14p+1; 0x1.574a21ea35936p+6; 0x1.1c94c01605250p+4; 0x1.0fd7980f55de6p+6; 0x1.32b83a109d063p+7; 0x1.22fbf61aa3f03p+5; 0x1.abd497fa5d28dp+6; 0x1.d3256de33269ep+5];
  [0x1.0f9999fe43676p+10; 0x1.58a7a00e27e0fp+7; 0x1.70a8f605ab3abp+7; 0x1.736b860999dcbp+7; 0x1.2e65c200c0f02p+10; 0x1.260bea4ebdd33p+4; 0x1.83d70a3d70a3dp+3; 0x1.8bccde19fc2a9p+6; 0x1.e13bf83382e45p+4; 0x1.5d9080303c07fp+5; 0x1.27d0d9d7774acp+5; 0x1.fd70a3d70a3d7p+3; 0x1.ca3d70a3d70a4p+1; 0x1.57c3c60029f17p+6; 0x1.1607a072d1aebp+4; 0x1.0b64141e9af5cp+6; 0x1.36b00c0f01fb8p+7; 0x1.239e4bcad9ad8p+5; 0x1.b1f599ed7c6fcp+6; 0x1.d4e58ff759685p+5];
  [0x1.138eb7fe08af0p+10; 0x1.5c942bf9830e4p+7; 0x1.75b333fc86cecp+7; 0x1.7d666601bc98ap+7; 0x1.3348f601797ccp+10; 0x1.26348a159817cp+4; 0x1.7c28f5c28f5c3p+3; 0x1.8e257214f0521p+6; 0x1.e3774256bca53p+4; 0x1.5c88f21709310p+5; 0x1.28e7da1ec4e72p+5; 0x1.fbd70a3d70a3dp+3; 0x1.bd70a3d70a3d7p+1; 0x1.577cd20afa2f0p+6; 0x1.0bcdac258d584p+4; 0x1.11b5c810a569bp+6; 0x1.3d20dbf0563edp+7; 0x1.242c57e23f24ep+5; 0x1.af2c69f8c21e2p+6; 0x1.da4eb0318b934p+5];
  [0x1.14bc27fe4bcaep+10; 0x1.5b48b9fdbd2fap+7; 0x1.788f5c0767d35p+7; 0x1.7ca8f605ab3abp+7; 0x1.37b7adff822bcp+10; 0x1.22144fe36d224p+4; 0x1.88f5c28f5c28fp+3; 0x1.9407fbefd0071p+6; 0x1.e01e518f3ecccp+4; 0x1.5e32b239a38fcp+5; 0x1.29c311e85fd05p+5; 0x1.ff5c28f5c28f6p+3; 0x1.b5c28f5c28f5cp+1; 0x1.5908240b78034p+6; 0x1.0d3dd22856606p+4; 0x1.14f8101f31f47p+6; 0x1.3e1647fdc5932p+7; 0x1.20ec5e2cdc012p+5; 0x1.afcf6dfc5cdd5p+6; 0x1.d7eb9c304cceep+5];
  [0x1.1490a400fba88p+10; 0x1.5b3e85fd04a30p+7; 0x1.77bd6ffc115dfp+7; 0x1.7d9999fe43676p+7; 0x1.392ccbff47736p+10; 0x1.2685c78a6dacbp+4; 0x1.7a3d70a3d70a4p+3; 0x1.8f2e1c15097c8p+6; 0x1.e2826bb55ac04p+4; 0x1.5cda09cc319c6p+5; 0x1.27b6102795704p+5; 0x1.e3851eb851eb8p+3; 0x1.90a3d70a3d70ap+1; 0x1.579117f84449ep+6; 0x1.1098d5842b735p+4; 0x1.1553a2163fdd6p+6; 0x1.3e8bddfc9ff93p+7; 0x1.209b341e14be0p+5; 0x1.b1ffc9ff92f2bp+6; 0x1.d6e2cc2d6a9c5p+5];
  [0x1.13a709fe86834p+10; 0x1.5b2a1ff2e48e9p+7; 0x1.77ae13f4a98abp+7; 0x1.7b9479f666235p+7; 0x1.39951dffc547ap+10; 0x1.2c64dc22ab25bp+4; 0x1.7eb851eb851ecp+3; 0x1.8c5131ec0b567p+6; 0x1.e6f90214ad363p+4; 0x1.54894bbe4473dp+5; 0x1.20d94e1a3f466p+5; 0x1.e1eb851eb851fp+3; 0x1.a51eb851eb852p+1; 0x1.54d5aff2a172bp+6; 0x1.0c1f7c6759ab7p+4; 0x1.178d61f5be5dap+6; 0x1.3f43edfa43fe6p+7; 0x1.2114f3fd933e3p+5; 0x1.b6c661f18c9fbp+6; 0x1.dbfa7221858bcp+5];
  [0x1.14614801f7510p+10; 0x1.5d22f405f6ba0p+7; 0x1.778a3df6db941p+7; 0x1.7980000000000p+7; 0x1.3f2b86013660ep+10; 0x1.2dd27a20578e6p+4; 0x1.847ae147ae148p+3; 0x1.8db5781c714fdp+6; 0x1.e8b9e279dd3bbp+4; 0x1.5df5ddd2ae8e2p+5; 0x1.1fbe9c0229a5fp+5; 0x1.e99999999999ap+3; 0x1.a8f5c28f5c28fp+1; 0x1.5833461309c80p+6; 0x1.13f3dc054ef46p+4; 0x1.1cff401c4fc1ep+6; 0x1.4161dffc5479dp+7; 0x1.21cb95e5aff2ap+5; 0x1.b91f7dfa00e28p+6; 0x1.dd6919ef954ebp+5];
  [0x1.1890a400fba88p+10; 0x1.60bde80bed741p+7; 0x1.66bd6ffc115dfp+7; 0x1.779479f666235p+7; 0x1.464ccbff47736p+10; 0x1.29b242070b8d0p+4; 0x1.80a3d70a3d70ap+3; 0x1.9116b7ed41b76p+6; 0x1.f12ca79357604p+4; 0x1.5d02962cfd8f1p+5; 0x1.230eb3dd11be7p+5; 0x1.e3d70a3d70a3dp+3; 0x1.ccccccccccccdp+1; 0x1.5a895208e1501p+6; 0x1.18e7ec7863befp+4; 0x1.231e13f4a98abp+6; 0x1.4432c6045baf5p+7; 0x1.21a30014f8b59p+5; 0x1.c067f5e84f095p+6; 0x1.e097e23f24d90p+5];
  [0x1.1870a400fba88p+10; 0x1.5ef2fc04c8bcap+7; 0x1.64c7adf2ecf20p+7; 0x1.6ccccc0379314p+7; 0x1.463709fe86834p+10; 0x1.20f7f27fe4bcbp+4; 0x1.7d1eb851eb852p+3; 0x1.905f7dfa00e28p+6; 0x1.f1f8b04ab606bp+4; 0x1.5df5ddd2ae8e2p+5; 0x1.21a33bd9cae21p+5; 0x1.b9eb851eb851fp+3; 0x1.c28f5c28f5c29p+1; 0x1.585bd1ed9dfdbp+6; 0x1.0c1f7c6759ab7p+4; 0x1.1fbd45e9185cfp+6; 0x1.441e4ffc9795bp+7; 0x1.221cbff47735cp+5; 0x1.bed06e19b90ebp+6; 0x1.e1ddcbddb9842p+5];
  [0x1.1afeb7fe08af0p+10; 0x1.64beda0168b5dp+7; 0x1.633333fc86cecp+7; 0x1.6fa8f605ab3abp+7; 0x1.43c0000000000p+10; 0x1.13524e160d888p+4; 0x1.85c28f5c28f5cp+3; 0x1.985d85dfa871ap+6; 0x1.f103d790752dbp+4; 0x1.5cb17df19d66bp+5; 0x1.22a9bbf0dc769p+5; 0x1.ba8f5c28f5c29p+3; 0x1.c147ae147ae14p+1; 0x1.5c6fddebd9019p+6; 0x1.0c1f7c6759ab7p+4; 0x1.2721adea89763p+6; 0x1.482c33f85510dp+7; 0x1.26b5b035bd513p+5; 0x1.c1adfc19c1722p+6; 0x1.e2a97bfa4c61ep+5];
  [0x1.1a728fffbce42p+10; 0x1.65106fef7c244p+7; 0x1.679999fe43676p+7; 0x1.70cccc0379314p+7; 0x1.435479fec99f2p+10; 0x1.0a1e1e2de8709p+4; 0x1.8f0a3d70a3d71p+3; 0x1.9eba37ef5a965p+6; 0x1.f5cc0bdcad14ap+4; 0x1.5b58d82342246p+5; 0x1.250784230fcf8p+5; 0x1.b666666666666p+3; 0x1.d5c28f5c28f5cp+1; 0x1.5a2e17e34b945p+6; 0x1.072b67c286f8bp+4; 0x1.28d72c0e7bc3cp+6; 0x1.4a7d460aa64c3p+7; 0x1.253423d9231c6p+5; 0x1.c2c11409a2403p+6; 0x1.e6155ffe6d58dp+5];
  [0x1.1c60a400fba88p+10; 0x1.6378800eae18bp+7; 0x1.6a9479f666235p+7; 0x1.701999fe43676p+7; 0x1.43a51dffc547ap+10; 0x1.02064dc22ab26p+4; 0x1.92e147ae147aep+3; 0x1.9fe16a055757dp+6; 0x1.f99f69878316ap+4; 0x1.55b967caea748p+5; 0x1.2580a9de8b3b3p+5; 0x1.c6b851eb851ecp+3; 0x1.d0a3d70a3d70ap+1; 0x1.591245f5ad96ap+6; 0x1.00f018611fd59p+4; 0x1.3176f7e3d1cc1p+6; 0x1.4d2f7dfa00e28p+7; 0x1.24ceabffcdab2p+5; 0x1.c1c25e13b18dbp+6; 0x1.e76fa82e87d2cp+5];
  [0x1.20f3d801b4352p+10; 0x1.609004102ff8fp+7; 0x1.72bd6ffc115dfp+7; 0x1.700a3df6db941p+7; 0x1.4bd3d801b4352p+10; 0x1.0098afc47e49bp+4; 0x1.94ccccccccccdp+3; 0x1.a34cd5f99c38bp+6; 0x1.fd212c6ac215cp+4; 0x1.56d53bd167664p+5; 0x1.2ab562174c4cep+5; 0x1.d19999999999ap+3; 0x1.b99999999999ap+1; 0x1.5d6d45e9185cfp+6; 0x1.0872a7bd48cb5p+4; 0x1.363be0157eed4p+6; 0x1.5014d5f99c38bp+7; 0x1.24ba61e0c5a81p+5; 0x1.c7033a0407cc8p+6; 0x1.e8a133c1ce6c1p+5];
  [0x1.247e14013ec46p+10; 0x1.60a4680171194p+7; 0x1.7ab333fc86cecp+7; 0x1.808f5c0767d35p+7; 0x1.54a28fffbce42p+10; 0x1.0c059a73b42ccp+4; 0x1.9e147ae147ae1p+3; 0x1.a516e9ff0cbb0p+6; 0x1.fccf8e7ddca4bp+4; 0x1.578bb23571d1dp+5; 0x1.255847f562175p+5; 0x1.dfae147ae147bp+3; 0x1.b47ae147ae148p+1; 0x1.5d9ff609dcf89p+6; 0x1.14e949a5657fbp+4; 0x1.34167620ee8d1p+6; 0x1.4de78df7a4e7bp+7; 0x1.23db2c40d0aaap+5; 0x1.c688f81e8a2ecp+6; 0x1.eadb8c32a8c9cp+5];
  [0x1.230f5bff04578p+10; 0x1.5b066ff7dfa01p+7; 0x1.751999fe43676p+7; 0x1.870f5c0767d35p+7; 0x1.5360a400fba88p+10; 0x1.04e189bd8383bp+4; 0x1.96b851eb851ecp+3; 0x1.a4a6f0068db8cp+6; 0x1.ff8545846e8f3p+4; 0x1.5db90e23af31bp+5; 0x1.240101f31f46fp+5; 0x1.ddc28f5c28f5cp+3; 0x1.90a3d70a3d70ap+1; 0x1.5e891819d2392p+6; 0x1.0fa367e414e7fp+4; 0x1.312fc0096feb5p+6; 0x1.4d8b83f0bae8ap+7; 0x1.24ba61e0c5a81p+5; 0x1.cc5876188b114p+6; 0x1.e403c5bd0e12fp+5];
  [0x1.2497adff822bcp+10; 0x1.54d4940bbb1f2p+7; 0x1.76f5c209246bfp+7; 0x1.8ca8f605ab3abp+7; 0x1.587ccbff47736p+10; 0x1.00c14f8b588e3p+4; 0x1.8d1eb851eb852p+3; 0x1.a7df761cbccf3p+6; 0x1.ff8545846e8f3p+4; 0x1.55cdac258d584p+5; 0x1.27654bcf0b6b7p+5; 0x1.d23d70a3d70a4p+3; 0x1.63d70a3d70a3dp+1; 0x1.5de6e9ff0cbb0p+6; 0x1.e9968b5cbff47p+3; 0x1.2f1eafee6fb4cp+6; 0x1.50b353f7ced91p+7; 0x1.271b25f633ce6p+5; 0x1.cc77060bb2bbbp+6; 0x1.e1c96c3fc43b3p+5];
  [0x1.25f5c200c0f02p+10; 0x1.55a08bfc2224fp+7; 0x1.7c00000000000p+7; 0x1.9a70a3f8982cbp+7; 0x1.5e833400b88cap+10; 0x1.ffec61522a6f4p+3; 0x1.9e66666666666p+3; 0x1.aefd8e0008638p+6; 0x1.00a314013ec46p+5; 0x1.586ab606b7aa2p+5; 0x1.2a506a2b17050p+5; 0x1.d3d70a3d70a3dp+3; 0x1.451eb851eb852p+1; 0x1.60657ff9b5632p+6; 0x1.e8f2ef0ae5365p+3; 0x1.35663800218dfp+6; 0x1.54320dfdef848p+7; 0x1.35371e29b6b2bp+5; 0x1.ceeeb4202d9cfp+6; 0x1.cd6ad3e920c07p+5];
  [0x1.25e51dffc547ap+10; 0x1.4e8e560418937p+7; 0x1.73f5c209246bfp+7; 0x1.96051e108c3f4p+7; 0x1.626b86013660ep+10; 0x1.02578e5c4eb57p+4; 0x1.aa3d70a3d70a4p+3; 0x1.b39a5c1c6088dp+6; 0x1.01464c2f837b5p+5; 0x1.54b1d81f10668p+5; 0x1.25e5a1cac0831p+5; 0x1.d0f5c28f5c28fp+3; 0x1.48f5c28f5c28fp+1; 0x1.5c7a00192a737p+6; 0x1.e23ce63a5c1c6p+3; 0x1.3064441787054p+6; 0x1.509ee2003ab86p+7; 0x1.354b69db65eccp+5; 0x1.ce7471f79420bp+6; 0x1.c5b2fc2656abep+5];
  [0x1.22ec27fe4bcaep+10; 0x1.4c9581f106680p+7; 0x1.763d6ffc115dfp+7; 0x1.8f51ec0b56755p+7; 0x1.677479fec99f2p+10; 0x1.fa35ed8d36b4cp+3; 0x1.9bd70a3d70a3dp+3; 0x1.ac5dba0a52696p+6; 0x1.fc2c5197a2489p+4; 0x1.5229142b302f7p+5; 0x1.2751183b60286p+5; 0x1.c3851eb851eb8p+3; 0x1.547ae147ae148p+1; 0x1.579b39e279dd4p+6; 0x1.d38995aaf78ffp+3; 0x1.2f330a0b1bbcfp+6; 0x1.4de78df7a4e7bp+7; 0x1.2b9fc9ff92f2bp+5; 0x1.ca1dea033e78ep+6; 0x1.c70d43d03968dp+5];
  [0x1.247c27fe4bcaep+10; 0x1.4d8011f4f50a0p+7; 0x1.75c7adf2ecf20p+7; 0x1.989479f666235p+7; 0x1.6ab8f601797ccp+10; 0x1.0098afc47e49bp+4; 0x1.b7ae147ae147bp+3; 0x1.a7df761cbccf3p+6; 0x1.fe1601ffb480ap+4; 0x1.4fdd24180d3d0p+5; 0x1.27654bcf0b6b7p+5; 0x1.bb851eb851eb8p+3; 0x1.48f5c28f5c28fp+1; 0x1.59aa51e321a2ep+6; 0x1.c764c2f837b4ap+3; 0x1.225cc3e3193f7p+6; 0x1.5184f3fd933e3p+7; 0x1.25999a1fd156ap+5; 0x1.cc5876188b114p+6; 0x1.c4073a365cb36p+5];
  [0x1.23eccbff47736p+10; 0x1.4e328bf3bea92p+7; 0x1.822e13f4a98abp+7; 0x1.8070a3f8982cbp+7; 0x1.5b80000000000p+10; 0x1.fc6eac8605682p+3; 0x1.a800000000000p+3; 0x1.a394180d3cff6p+6; 0x1.03072e275ab7ep+5; 0x1.5005aff2a172bp+5; 0x1.34e239e6ab9b2p+5; 0x1.be66666666666p+3; 0x1.3eb851eb851ecp+1; 0x1.60ac73eee5259p+6; 0x1.bd2acfb762d84p+3; 0x1.2285781c714fdp+6; 0x1.595e3ffef3908p+7; 0x1.26a3d816aceabp+5; 0x1.d11f0fe047d3dp+6; 0x1.bd954c122749fp+5];
  [0x1.15f999fe43676p+10; 0x1.3fb25204af923p+7; 0x1.7c8f5c0767d35p+7; 0x1.769eb80ecfa6ap+7; 0x1.657ccbff47736p+10; 0x1.f05f41aef6f8fp+3; 0x1.8e66666666666p+3; 0x1.9f7173fb7a5f4p+6; 0x1.fd49fa54c5543p+4; 0x1.44b287c200c0fp+5; 0x1.2c493c03bc4d2p+5; 0x1.b4ccccccccccdp+3; 0x1.2cccccccccccdp+1; 0x1.4eb28bf3bea92p+6; 0x1.b105fd04a2fcfp+3; 0x1.1b21101b00368p+6; 0x1.549d6e04c0592p+7; 0x1.24e148344c37ep+5; 0x1.c6d04816f0069p+6; 0x1.bbc0cbf2b239ap+5];
  [0x1.07f33400b88cap+10; 0x1.37b589efd86a9p+7; 0x1.6a851e108c3f4p+7; 0x1.690f5c0767d35p+7; 0x1.5b80000000000p+10; 0x1.d9342edbb59dep+3; 0x1.723d70a3d70a4p+3; 0x1.8dfcb9ecf6380p+6; 0x1.e2599bb2788dbp+4; 0x1.39228fe260b2dp+5; 0x1.20ed801b43526p+5; 0x1.9d70a3d70a3d7p+3; 0x1.1c28f5c28f5c3p+1; 0x1.3ba6f7e3d1cc1p+6; 0x1.a2a480e8c8abdp+3; 0x1.0e54f7ec3547ep+6; 0x1.48b63e07a28bbp+7; 0x1.155c27e953155p+5; 0x1.b1011409a2403p+6; 0x1.b328e1d6494d5p+5];
  [0x1.0e266601bc98ap+10; 0x1.44bc6bf01322fp+7; 0x1.729eb80ecfa6ap+7; 0x1.725709fa54c55p+7; 0x1.68b5c200c0f02p+10; 0x1.e4a11a975afb0p+3; 0x1.74ccccccccccdp+3; 0x1.9135421c04428p+6; 0x1.f155757d5a9ebp+4; 0x1.4b82163fdd65ap+5; 0x1.22815a07b352bp+5; 0x1.a333333333333p+3; 0x1.23d70a3d70a3dp+1; 0x1.363a4a05dd8f9p+6; 0x1.b8b1769a91106p+3; 0x1.1764b1ee24357p+6; 0x1.52141bfbdf091p+7; 0x1.1a3d701d9f4d3p+5; 0x1.be2d6a161e4f7p+6; 0x1.ba7ae1cde5d18p+5];
  [0x1.06251dffc547ap+10; 0x1.3dc8c9fb6134dp+7; 0x1.685c280ae1049p+7; 0x1.689999fe43676p+7; 0x1.6231ebfec13bap+10; 0x1.e3fe996312f4dp+3; 0x1.7333333333333p+3; 0x1.98f63800218dfp+6; 0x1.f2217e34b9453p+4; 0x1.4fb4983d79075p+5; 0x1.234b463497b74p+5; 0x1.a851eb851eb85p+3; 0x1.2147ae147ae14p+1; 0x1.30a5100a393eep+6; 0x1.a3481d3aa36a0p+3; 0x1.1b3569f490603p+6; 0x1.50fae7f6f4be8p+7; 0x1.17d70a3d70a3dp+5; 0x1.c133bc0a06ea0p+6; 0x1.b3ae13f4a98abp+5];
  [0x1.f4c29003eea21p+9; 0x1.350a3df6db941p+7; 0x1.5728f605ab3abp+7; 0x1.5b666601bc98ap+7; 0x1.51a0000000000p+10; 0x1.ca9ac9afe1da8p+3; 0x1.670a3d70a3d71p+3; 0x1.8db5781c714fdp+6; 0x1.da0fa7a85015cp+4; 0x1.42b7afea3df6ep+5; 0x1.1891162281345p+5; 0x1.a47ae147ae148p+3; 0x1.0e147ae147ae1p+1; 0x1.2d3333fc86cecp+6; 0x1.99b1c864883fdp+3; 0x1.116461f9f01b8p+6; 0x1.40c87df5cf249p+7; 0x1.0d0a3df6db941p+5; 0x1.ad57bfe7e1fc1p+6; 0x1.ae28f5c28f5c3p+5];
  [0x1.0371ebfec13bap+10; 0x1.38d1ec0b56755p+7; 0x1.6038520d130e0p+7; 0x1.615709fa54c55p+7; 0x1.4ee66601bc98ap+10; 0x1.da27eb6bf444ep+3; 0x1.69eb851eb851fp+3; 0x1.8b1fd21ff2e49p+6; 0x1.e3774256bca53p+4; 0x1.4857204295a6cp+5; 0x1.1c5a543f1c758p+5; 0x1.b800000000000p+3; 0x1.1333333333333p+1; 0x1.2f1eb80ecfa6ap+6; 0x1.962ddbdb5d895p+3; 0x1.1938b3f63c31ep+6; 0x1.49ee1e0c5a815p+7; 0x1.1147ae147ae14p+5; 0x1.b5f06e19b90ebp+6; 0x1.b4a3d816aceabp+5];
  [0x1.06fc27fe4bcaep+10; 0x1.456b860999dcbp+7; 0x1.60d1ec0b56755p+7; 0x1.62e147f130596p+7; 0x1.5a8eb7fe08af0p+10; 0x1.d658f4f93bc0ap+3; 0x1.75c28f5c28f5cp+3; 0x1.8bd70c1333b97p+6; 0x1.f00f01fb82c2cp+4; 0x1.4c9de9c0229a6p+5; 0x1.1ee07dd441355p+5; 0x1.c75c28f5c28f6p+3; 0x1.08f5c28f5c28fp+1; 0x1.31ae13f4a98abp+6; 0x1.a10b6f9fcb0c0p+3; 0x1.17978feef5ec8p+6; 0x1.4fe6d20296b33p+7; 0x1.1547ae147ae14p+5; 0x1.bcb471f79420bp+6; 0x1.bb0a3df6db941p+5];
  [0x1.07066601bc98ap+10; 0x1.48ae13f4a98abp+7; 0x1.5a4ccc0379314p+7; 0x1.6680000000000p+7; 0x1.61a0a400fba88p+10; 0x1.d1963dc486ad3p+3; 0x1.78f5c28f5c28fp+3; 0x1.9186b00ffda40p+6; 0x1.f103d790752dbp+4; 0x1.47dd7dbf487fdp+5; 0x1.20b0ea18372e7p+5; 0x1.0b33343fa2ad4p+4; 0x1.228f5c28f5c29p+1; 0x1.313333fc86cecp+6; 0x1.96d17c5ef62fap+3; 0x1.169933e35c5b5p+6; 0x1.53c193f6c269ap+7; 0x1.17851e321a2e8p+5; 0x1.bf73721d53cdep+6; 0x1.bd5c27e953155p+5];
  [0x1.0b6ccbff47736p+10; 0x1.4ebd6ffc115dfp+7; 0x1.670a3df6db941p+7; 0x1.75851e108c3f4p+7; 0x1.6ac33400b88cap+10; 0x1.d8e2ed352220cp+3; 0x1.8666666666666p+3; 0x1.946398201cd60p+6; 0x1.fe1601ffb480ap+4; 0x1.4b1cb81733227p+5; 0x1.1f31422ccb3a2p+5; 0x1.1c28f5c28f5c3p+4; 0x1.2666666666666p+1; 0x1.31d709fa54c55p+6; 0x1.a3ebbdbe3c105p+3; 0x1.20375c0767d35p+6; 0x1.588ca1f080304p+7; 0x1.19851e321a2e8p+5; 0x1.c9cc67dfe32a0p+6; 0x1.bfeb862b27cbfp+5];
  [0x1.10614801f7510p+10; 0x1.59fae1ef73c0cp+7; 0x1.67eb860999dcbp+7; 0x1.76e66601bc98ap+7; 0x1.6d70a400fba88p+10; 0x1.d74cb3a2595bcp+3; 0x1.86147ae147ae1p+3; 0x1.9a7909f1f1498p+6; 0x1.00b779e9d0e99p+5; 0x1.4b6dce39b456bp+5; 0x1.23d8a009f6230p+5; 0x1.268f5c28f5c29p+4; 0x1.50a3d70a3d70ap+1; 0x1.30d709fa54c55p+6; 0x1.b3947cfa26a23p+3; 0x1.23654c122749fp+6; 0x1.5ce217f4128bfp+7; 0x1.1dae13f4a98abp+5; 0x1.cbb573eab367ap+6; 0x1.c4a3d816aceabp+5];
  [0x1.11b33400b88cap+10; 0x1.58dc280ae1049p+7; 0x1.62b8520d130e0p+7; 0x1.6f5c280ae1049p+7; 0x1.6a2c27fe4bcaep+10; 0x1.dda5a682b6284p+3; 0x1.7a3d70a3d70a4p+3; 0x1.a0a2d40aaeafbp+6; 0x1.fd9b9628cbd12p+4; 0x1.4569003eea20ap+5; 0x1.24f352220bc38p+5; 0x1.15c29068986fdp+4; 0x1.4e147ae147ae1p+1; 0x1.3228f605ab3abp+6; 0x1.a86518f3eccc4p+3; 0x1.22d6dc1a47a9ep+6; 0x1.5ecce8101f31fp+7; 0x1.221479d4d8341p+5; 0x1.c867d1fe64f55p+6; 0x1.c3d70a3d70a3dp+5];
  [0x1.139d7000431bep+10; 0x1.57b333fc86cecp+7; 0x1.60051e108c3f4p+7; 0x1.766147f130596p+7; 0x1.6f166601bc98ap+10; 0x1.d3cef88b97785p+3; 0x1.80a3d70a3d70ap+3; 0x1.76357ff9b5632p+6; 0x1.fcf85c67dfe33p+4; 0x1.42e03dddb120ap+5; 0x1.2208323358f2ep+5; 0x1.123d6f9767903p+4; 0x1.2a3d70a3d70a4p+1; 0x1.2f00000000000p+6; 0x1.a200e06530058p+3; 0x1.1dd4e7ee9142bp+6; 0x1.5e338800eae19p+7; 0x1.201479d4d8341p+5; 0x1.c88661f18c9fbp+6; 0x1.bfc28fe260b2dp+5];
  [0x1.15d5c200c0f02p+10; 0x1.5623d7f51efb7p+7; 0x1.63d1ec0b56755p+7; 0x1.79a3d7f51efb7p+7; 0x1.72bae2003ab86p+10; 0x1.cbdfc7e6b3feap+3; 0x1.770a3d70a3d71p+3; 0x1.6be90de093533p+6; 0x1.fc0385c67dfe3p+4; 0x1.41367e414e7efp+5; 0x1.1e6755ffe6d59p+5; 0x1.107ae2541d8e8p+4; 0x1.2e147ae147ae1p+1; 0x1.2b8f5be5d9e41p+6; 0x1.9ce3e6c4c5975p+3; 0x1.195739f340d4ep+6; 0x1.582661f18c9fbp+7; 0x1.1e1479d4d8341p+5; 0x1.ca6f6dfc5cdd5p+6; 0x1.c0cccbc05d52cp+5];
  [0x1.14a852007dd44p+10; 0x1.5900000000000p+7; 0x1.65fae1ef73c0cp+7; 0x1.7980000000000p+7; 0x1.7355c200c0f02p+10; 0x1.d000000000000p+3; 0x1.7ae147ae147aep+3; 0x1.70e177ea1c68fp+6; 0x1.f924ffc9795b3p+4; 0x1.43fc11e42e126p+5; 0x1.1faa6c1a048e0p+5; 0x1.09eb862b27cbfp+4; 0x1.2a3d70a3d70a4p+1; 0x1.2f70a41a261bfp+6; 0x1.9f7262888b546p+3; 0x1.1b53eff195033p+6; 0x1.59687a072d1afp+7; 0x1.1deb862b27cbfp+5; 0x1.c999780baa583p+6; 0x1.bb33343fa2ad4p+5];
  [0x1.19b28fffbce42p+10; 0x1.5f00000000000p+7; 0x1.6e9479f666235p+7; 0x1.829479f666235p+7; 0x1.7700000000000p+10; 0x1.cfae147ae147bp+3; 0x1.823d70a3d70a4p+3; 0x1.715ba01eeed89p+6; 0x1.fe906bbdbe3c1p+4; 0x1.43fc11e42e126p+5; 0x1.21a33bd9cae21p+5; 0x1.1051eb851eb85p+4; 0x1.370a3d70a3d71p+1; 0x1.361eb80ecfa6ap+6; 0x1.add3e2d6238dap+3; 0x1.22ccaff6d3309p+6; 0x1.5f05260f5e41dp+7; 0x1.221479d4d8341p+5; 0x1.d2df5a1016ce8p+6; 0x1.c11eb7cbb3c82p+5];
  [0x1.1df0000000000p+10; 0x1.65f0a3f8982cbp+7; 0x1.71dc280ae1049p+7; 0x1.846147f130596p+7; 0x1.7c7ccbff47736p+10; 0x1.d4ccccccccccdp+3; 0x1.8d70a3d70a3d7p+3; 0x1.7245bff04577ep+6; 0x1.0263f1c75818cp+5; 0x1.48f951c5c5719p+5; 0x1.27797c3d68406p+5; 0x1.1400000000000p+4; 0x1.4a3d70a3d70a4p+1; 0x1.3b5c27e953155p+6; 0x1.b105fd04a2fcfp+3; 0x1.206a3c21187e8p+6; 0x1.633bedfa43fe6p+7; 0x1.28b851eb851ecp+5; 0x1.d8aed80a17b0fp+6; 0x1.c95c27e953155p+5];
  [0x1.17928fffbce42p+10; 0x1.64c7adf2ecf20p+7; 0x1.6aeb860999dcbp+7; 0x1.78851e108c3f4p+7; 0x1.79feb7fe08af0p+10; 0x1.d000000000000p+3; 0x1.90f5c28f5c28fp+3; 0x1.6be90de093533p+6; 0x1.01ac521dda05ap+5; 0x1.3e1fce3150daep+5; 0x1.22d21dda059a7p+5; 0x1.0c00000000000p+4; 0x1.48f5c28f5c28fp+1; 0x1.3600000000000p+6; 0x1.a48f5c28f5c29p+3; 0x1.1c1f6a0dbad3ap+6; 0x1.5f5c100e6afcdp+7; 0x1.266665e02ea96p+5; 0x1.d31249e44fa05p+6; 0x1.c48f5c28f5c29p+5];
  [0x1.142eb7fe08af0p+10; 0x1.643d6ffc115dfp+7; 0x1.64a3d7f51efb7p+7; 0x1.7447adf2ecf20p+7; 0x1.7a1ccbff47736p+10; 0x1.c3851eb851eb8p+3; 0x1.83851eb851eb8p+3; 0x1.65e7fbefd0071p+6; 0x1.ffae126202539p+4; 0x1.37a15c209246cp+5; 0x1.1e5323fee2c99p+5; 0x1.0947ae147ae14p+4; 0x1.35c28f5c28f5cp+1; 0x1.2ef5c209246bfp+6; 0x1.a8b6e71cda2b6p+3; 0x1.1fe5f80991794p+6; 0x1.5f05260f5e41dp+7; 0x1.227ae1cde5d18p+5; 0x1.cbab441bb8c33p+6; 0x1.c8cccbc05d52cp+5];
  [0x1.0b614801f7510p+10; 0x1.5e00000000000p+7; 0x1.5fe147f130596p+7; 0x1.6bfae1ef73c0cp+7; 0x1.755ccbff47736p+10; 0x1.c0a3d70a3d70ap+3; 0x1.7cccccccccccdp+3; 0x1.62355000c953ap+6; 0x1.f7ae147ae147bp+4; 0x1.2b46a5d6bebe1p+5; 0x1.1bf55de58e64bp+5; 0x1.023d6f9767903p+4; 0x1.3c28f5c28f5c3p+1; 0x1.2ccccc0379314p+6; 0x1.b80dd616f86a1p+3; 0x1.2b43cc07aaef3p+6; 0x1.5a7c91f2dc2b1p+7; 0x1.1d0a3df6db941p+5; 0x1.c36e4606748e4p+6; 0x1.c15c27e953155p+5];
  [0x1.0dbae2003ab86p+10; 0x1.606b860999dcbp+7; 0x1.613d6ffc115dfp+7; 0x1.67851e108c3f4p+7; 0x1.7710000000000p+10; 0x1.c3d70a3d70a3dp+3; 0x1.79eb851eb851fp+3; 0x1.60f9be09bb6aap+6; 0x1.fa1479d4d8341p+4; 0x1.286ccbc05d52cp+5; 0x1.1eb819d2391d5p+5; 0x1.1051eb851eb85p+4; 0x1.5d70a3d70a3d7p+1; 0x1.2e3333fc86cecp+6; 0x1.d42d3415b1423p+3; 0x1.22486bdf4c2b5p+6; 0x1.5d8acffa7eb6cp+7; 0x1.1f999a1fd156ap+5; 0x1.c2fe33eff1950p+6; 0x1.c770a3d70a3d7p+5];
  [0x1.10bb86013660ep+10; 0x1.61a3d7f51efb7p+7; 0x1.68cccc0379314p+7; 0x1.6b3333fc86cecp+7; 0x1.7ce709fe86834p+10; 0x1.cd70a3d70a3d7p+3; 0x1.7d1eb851eb852p+3; 0x1.65c97204295a7p+6; 0x1.010a3df6db941p+5; 0x1.2ae148344c37ep+5; 0x1.217ad9f0a1be3p+5; 0x1.16b851eb851ecp+4; 0x1.4666666666666p+1; 0x1.31147a17f4129p+6; 0x1.e2e084a515ceap+3; 0x1.2a4f9c1f85d74p+6; 0x1.648d5ffe6d58dp+7; 0x1.20f5c209246bfp+5; 0x1.c9eaf81626b2fp+6; 0x1.c7eb862b27cbfp+5];
  [0x1.11c3d801b4352p+10; 0x1.615709fa54c55p+7; 0x1.678f5c0767d35p+7; 0x1.76bd6ffc115dfp+7; 0x1.8068f601797ccp+10; 0x1.d47ae147ae148p+3; 0x1.7851eb851eb85p+3; 0x1.6220f1f57b41cp+6; 0x1.00e148344c37ep+5; 0x1.2c627bf61aa3fp+5; 0x1.22d21dda059a7p+5; 0x1.19eb862b27cbfp+4; 0x1.3ae147ae147aep+1; 0x1.30b851eb851ecp+6; 0x1.e664712e40853p+3; 0x1.311b65ecc3e32p+6; 0x1.628e19fc2a887p+7; 0x1.1f0a3df6db941p+5; 0x1.ca50dbf0563edp+6; 0x1.c83d701d9f4d3p+5];
  [0x1.1568f601797ccp+10; 0x1.5e0f5c0767d35p+7; 0x1.6f6b860999dcbp+7; 0x1.7a1999fe43676p+7; 0x1.8240000000000p+10; 0x1.d051eb851eb85p+3; 0x1.87ae147ae147bp+3; 0x1.5ce1461b6d43dp+6; 0x1.0170a3d70a3d7p+5; 0x1.2ae148344c37ep+5; 0x1.2322e3c536d65p+5; 0x1.161479d4d8341p+4; 0x1.35c28f5c28f5cp+1; 0x1.290a3df6db941p+6; 0x1.e7abb01c92ddcp+3; 0x1.24aadff822bbfp+6; 0x1.65e909f1f1498p+7; 0x1.1f70a3d70a3d7p+5; 0x1.c89ac3eb7cbb4p+6; 0x1.c83d701d9f4d3p+5];
  [0x1.1980000000000p+10; 0x1.61e147f130596p+7; 0x1.6cae13f4a98abp+7; 0x1.765c280ae1049p+7; 0x1.83f709fe86834p+10; 0x1.d0a3d70a3d70ap+3; 0x1.7f0a3d70a3d71p+3; 0x1.5fae13f4a98abp+6; 0x1.01999a1fd156ap+5; 0x1.2eb851eb851ecp+5; 0x1.24b6be37de93ap+5; 0x1.128f5c28f5c29p+4; 0x1.370a3d70a3d71p+1; 0x1.287ae21101b00p+6; 0x1.e147778dd6170p+3; 0x1.231e13f4a98abp+6; 0x1.65fd7e02645e5p+7; 0x1.2400000000000p+5; 0x1.c8a4f1e4b44a2p+6; 0x1.cbc28fe260b2dp+5];
  [0x1.22028fffbce42p+10; 0x1.67f5c209246bfp+7; 0x1.7275c209246bfp+7; 0x1.7d1999fe43676p+7; 0x1.8ab8f601797ccp+10; 0x1.de147ae147ae1p+3; 0x1.7666666666666p+3; 0x1.62e147f130596p+6; 0x1.05c28fe260b2dp+5; 0x1.2eb851eb851ecp+5; 0x1.243d95dd4c76dp+5; 0x1.10cccbc05d52cp+4; 0x1.47ae147ae147bp+1; 0x1.2a3d701d9f4d3p+6; 0x1.f7029cfdd2285p+3; 0x1.256202107b784p+6; 0x1.6df577fae3609p+7; 0x1.2628f5c28f5c3p+5; 0x1.d5c719f7f8ca8p+6; 0x1.d3ae13f4a98abp+5];
  [0x1.2320000000000p+10; 0x1.6b70a3f8982cbp+7; 0x1.71851e108c3f4p+7; 0x1.817ae1ef73c0cp+7; 0x1.8f98f601797ccp+10; 0x1.e333333333333p+3; 0x1.70a3d70a3d70ap+3; 0x1.6047ae147ae14p+6; 0x1.06b851eb851ecp+5; 0x1.2ea3d816aceabp+5; 0x1.26af901083dbcp+5; 0x1.12e147ae147aep+4; 0x1.3851eb851eb85p+1; 0x1.2cf5c209246bfp+6; 0x1.f28943e100608p+3; 0x1.1e592e1ef73c1p+6; 0x1.6c8f9207d4e09p+7; 0x1.24e148344c37ep+5; 0x1.d443f20a73f75p+6; 0x1.db33343fa2ad4p+5];
  [0x1.1c8ae2003ab86p+10; 0x1.67f0a3f8982cbp+7; 0x1.6bc29003eea21p+7; 0x1.78d1ec0b56755p+7; 0x1.8d0b86013660ep+10; 0x1.cdc28f5c28f5cp+3; 0x1.747ae147ae148p+3; 0x1.613333fc86cecp+6; 0x1.02e148344c37ep+5; 0x1.301479d4d8341p+5; 0x1.26ec21e1d2179p+5; 0x1.08f5c182ecaefp+4; 0x1.4666666666666p+1; 0x1.2a1eb80ecfa6ap+6; 0x1.f237739f340d5p+3; 0x1.1c3df00abf76ap+6; 0x1.698154003254ep+7; 0x1.2600000000000p+5; 0x1.cea763e4abe6ap+6; 0x1.d86665e02ea96p+5];
  [0x1.1f5f5bff04578p+10; 0x1.64e147f130596p+7; 0x1.706147f130596p+7; 0x1.811eb80ecfa6ap+7; 0x1.8dc0000000000p+10; 0x1.c8a3d70a3d70ap+3; 0x1.6b851eb851eb8p+3; 0x1.5eae13f4a98abp+6; 0x1.011eb7cbb3c82p+5; 0x1.2d851e321a2e8p+5; 0x1.241533f42352fp+5; 0x1.0147ae147ae14p+4; 0x1.35c28f5c28f5cp+1; 0x1.266665e02ea96p+6; 0x1.e0a3d70a3d70ap+3; 0x1.15cdb7f173754p+6; 0x1.67ba4bfd2e947p+7; 0x1.22cccbc05d52cp+5; 0x1.c97ae5ffa3b9bp+6; 0x1.d6a3d816aceabp+5];
  [0x1.1f651dffc547ap+10; 0x1.654ccc0379314p+7; 0x1.6fb8520d130e0p+7; 0x1.8e1eb80ecfa6ap+7; 0x1.8b9479fec99f2p+10; 0x1.cb851eb851eb8p+3; 0x1.6eb851eb851ecp+3; 0x1.5e0a3df6db941p+6; 0x1.00cccbc05d52cp+5; 0x1.2ecccbc05d52cp+5; 0x1.242965f5275efp+5; 0x1.fcccccccccccdp+3; 0x1.2147ae147ae14p+1; 0x1.29ae13f4a98abp+6; 0x1.d7ae147ae147bp+3; 0x1.122fddebd9019p+6; 0x1.6962a60913a50p+7; 0x1.24a3d816aceabp+5; 0x1.caa25bfad2999p+6; 0x1.daf5c209246bfp+5];
  [0x1.1beeb7fe08af0p+10; 0x1.640a3df6db941p+7; 0x1.722e13f4a98abp+7; 0x1.908f5c0767d35p+7; 0x1.88eb86013660ep+10; 0x1.c9eb851eb851fp+3; 0x1.6f0a3d70a3d71p+3; 0x1.64ae13f4a98abp+6; 0x1.015c27e953155p+5; 0x1.2f851e321a2e8p+5; 0x1.23d8a009f6230p+5; 0x1.030a3e7d13511p+4; 0x1.28f5c28f5c28fp+1; 0x1.2c7ae21101b00p+6; 0x1.e3851eb851eb8p+3; 0x1.1520c4156e265p+6; 0x1.6c94aff6d3309p+7; 0x1.263d701d9f4d3p+5; 0x1.cb6e221c8a7a4p+6; 0x1.d800000000000p+5];
  [0x1.12f479fec99f2p+10; 0x1.5e9999fe43676p+7; 0x1.591eb80ecfa6ap+7; 0x1.850f5c0767d35p+7; 0x1.823b86013660ep+10; 0x1.c23d70a3d70a4p+3; 0x1.6dc28f5c28f5cp+3; 0x1.5dcccc0379314p+6; 0x1.ffae147ae147bp+4; 0x1.281479d4d8341p+5; 0x1.208889c1b5419p+5; 0x1.0266666666666p+4; 0x1.2a3d70a3d70a4p+1; 0x1.28999a1fd156ap+6; 0x1.d51eb851eb852p+3; 0x1.105bda0dfdef8p+6; 0x1.68a57c0b13598p+7; 0x1.22a3d816aceabp+5; 0x1.c7cefe0ce0b91p+6; 0x1.d26665e02ea96p+5];
  [0x1.126d7000431bep+10; 0x1.5e7ae1ef73c0cp+7; 0x1.504ccc0379314p+7; 0x1.8de66601bc98ap+7; 0x1.8ca0a400fba88p+10; 0x1.b47ae147ae148p+3; 0x1.63851eb851eb8p+3; 0x1.5fcccc0379314p+6; 0x1.ffae147ae147bp+4; 0x1.271eb7cbb3c82p+5; 0x1.1ea3e9ea14057p+5; 0x1.0000000000000p+4; 0x1.251eb851eb852p+1; 0x1.27f5c209246bfp+6; 0x1.c9eb851eb851fp+3; 0x1.165c2a0232096p+6; 0x1.6c803c07ee0b1p+7; 0x1.22a3d816aceabp+5; 0x1.c83f0fe047d3dp+6; 0x1.d547ae147ae14p+5];
  [0x1.10b852007dd44p+10; 0x1.568a3df6db941p+7; 0x1.52c7adf2ecf20p+7; 0x1.869999fe43676p+7; 0x1.8b7709fe86834p+10; 0x1.bc28f5c28f5c3p+3; 0x1.6851eb851eb85p+3; 0x1.60b851eb851ecp+6; 0x1.fdeb862b27cbfp+4; 0x1.2ca3d816aceabp+5; 0x1.1bf55de58e64bp+5; 0x1.fe66666666666p+3; 0x1.28f5c28f5c28fp+1; 0x1.2c28f605ab3abp+6; 0x1.ecccccccccccdp+3; 0x1.11c28fe260b2dp+6; 0x1.68fc660a20147p+7; 0x1.2228f5c28f5c3p+5; 0x1.c8a4f1e4b44a2p+6; 0x1.d3c28fe260b2dp+5];
  [0x1.06451dffc547ap+10; 0x1.51b333fc86cecp+7; 0x1.49c7adf2ecf20p+7; 0x1.714ccc0379314p+7; 0x1.823ae2003ab86p+10; 0x1.ab33333333333p+3; 0x1.5d1eb851eb852p+3; 0x1.5c8f5be5d9e41p+6; 0x1.e8cccbc05d52cp+4; 0x1.22cccbc05d52cp+5; 0x1.16fd3a1d323ffp+5; 0x1.f75c28f5c28f6p+3; 0x1.2666666666666p+1; 0x1.2600000000000p+6; 0x1.e428f5c28f5c3p+3; 0x1.0d00000000000p+6; 0x1.5e8a71fff79c8p+7; 0x1.1ccccbc05d52cp+5; 0x1.b594bbe4473cdp+6; 0x1.ce28f5c28f5c3p+5];
  [0x1.fec8f5fd47beep+9; 0x1.49e147f130596p+7; 0x1.3ec7adf2ecf20p+7; 0x1.6a666601bc98ap+7; 0x1.75e3d801b4352p+10; 0x1.a23d70a3d70a4p+3; 0x1.5428f5c28f5c3p+3; 0x1.55ae13f4a98abp+6; 0x1.d2b851eb851ecp+4; 0x1.195c27e953155p+5; 0x1.11b454152b0a7p+5; 0x1.f8f5c28f5c28fp+3; 0x1.170a3d70a3d71p+1; 0x1.238f5be5d9e41p+6; 0x1.d4ccccccccccdp+3; 0x1.0ab851eb851ecp+6; 0x1.572bda0dfdef8p+7; 0x1.13eb862b27cbfp+5; 0x1.a9e15df6555c5p+6; 0x1.c27ae1cde5d18p+5];
  [0x1.074d7000431bep+10; 0x1.598a3df6db941p+7; 0x1.401eb80ecfa6ap+7; 0x1.7d00000000000p+7; 0x1.84f709fe86834p+10; 0x1.9c7ae147ae148p+3; 0x1.4e147ae147ae1p+3; 0x1.5e00000000000p+6; 0x1.e70a3e7d13511p+4; 0x1.1feb862b27cbfp+5; 0x1.11a0221426fe7p+5; 0x1.0ab851eb851ecp+4; 0x1.2a3d70a3d70a4p+1; 0x1.2800000000000p+6; 0x1.e3d70a3d70a3dp+3; 0x1.160a3df6db941p+6; 0x1.61d60bf5d7881p+7; 0x1.1851ec0b56755p+5; 0x1.b70383f0bae8ap+6; 0x1.ce6665e02ea96p+5];
  [0x1.f68ccc0379314p+9; 0x1.50ae13f4a98abp+7; 0x1.3070a3f8982cbp+7; 0x1.6bc7adf2ecf20p+7; 0x1.76433400b88cap+10; 0x1.ae147ae147ae1p+3; 0x1.4000000000000p+3; 0x1.583333fc86cecp+6; 0x1.d851eb851eb85p+4; 0x1.16f5c209246bfp+5; 0x1.13482e019b0abp+5; 0x1.070a3e7d13511p+4; 0x1.4000000000000p+1; 0x1.26cccc0379314p+6; 0x1.c99999999999ap+3; 0x1.0ef5c209246bfp+6; 0x1.588ca1f080304p+7; 0x1.181479d4d8341p+5; 0x1.ae7f35e310dbfp+6; 0x1.cbae13f4a98abp+5];
  [0x1.f647ae03b3e9ap+9; 0x1.4cf5c209246bfp+7; 0x1.320f5c0767d35p+7; 0x1.65d1ec0b56755p+7; 0x1.65dae2003ab86p+10; 0x1.b5c28f5c28f5cp+3; 0x1.39eb851eb851fp+3; 0x1.5f147a17f4129p+6; 0x1.d63d6f9767903p+4; 0x1.1bc28fe260b2dp+5; 0x1.187ce4217d285p+5; 0x1.0547ae147ae14p+4; 0x1.67ae147ae147bp+1; 0x1.233d701d9f4d3p+6; 0x1.cae147ae147aep+3; 0x1.123d701d9f4d3p+6; 0x1.54372c0e7bc3cp+7; 0x1.1a6665e02ea96p+5; 0x1.add202107b784p+6; 0x1.cf33343fa2ad4p+5];
  [0x1.01f28fffbce42p+10; 0x1.4f8f5c0767d35p+7; 0x1.3f9479f666235p+7; 0x1.6f1479f666235p+7; 0x1.69d5c200c0f02p+10; 0x1.af5c28f5c28f6p+3; 0x1.419999999999ap+3; 0x1.63e147f130596p+6; 0x1.dfd70a3d70a3dp+4; 0x1.22b851eb851ecp+5; 0x1.19329fe004b7fp+5; 0x1.059999999999ap+4; 0x1.55c28f5c28f5cp+1; 0x1.2a70a41a261bfp+6; 0x1.d147ae147ae14p+3; 0x1.17f5c209246bfp+6; 0x1.5dd263f9a49c3p+7; 0x1.1beb862b27cbfp+5; 0x1.b5a91e215336ep+6; 0x1.cf1eb7cbb3c82p+5];
  [0x1.f73c28027d88cp+9; 0x1.4d5c280ae1049p+7; 0x1.36c7adf2ecf20p+7; 0x1.6338520d130e0p+7; 0x1.56ff5bff04578p+10; 0x1.a3d70a3d70a3dp+3; 0x1.30f5c28f5c28fp+3; 0x1.563333fc86cecp+6; 0x1.d4f5c182ecaefp+4; 0x1.1e1479d4d8341p+5; 0x1.14dc07ee0b0afp+5; 0x1.019999999999ap+4; 0x1.4b851eb851eb8p+1; 0x1.24e147f130596p+6; 0x1.b7ae147ae147bp+3; 0x1.13ae13f4a98abp+6; 0x1.56b6440f23897p+7; 0x1.186665e02ea96p+5; 0x1.ad392ff4ba51ap+6; 0x1.c1eb862b27cbfp+5];
  [0x1.fab479fec99f2p+9; 0x1.50c7adf2ecf20p+7; 0x1.3838520d130e0p+7; 0x1.5d5709fa54c55p+7; 0x1.5c033400b88cap+10; 0x1.a428f5c28f5c3p+3; 0x1.319999999999ap+3; 0x1.5b3333fc86cecp+6; 0x1.d970a3d70a3d7p+4; 0x1.27851e321a2e8p+5; 0x1.16fd3a1d323ffp+5; 0x1.0d1eb851eb852p+4; 0x1.5851eb851eb85p+1; 0x1.2c147a17f4129p+6; 0x1.be66666666666p+3; 0x1.195c27e953155p+6; 0x1.58731209edbf9p+7; 0x1.1d70a3d70a3d7p+5; 0x1.b31d0fe8ab4fap+6; 0x1.d000000000000p+5];
  [0x1.0048f601797ccp+10; 0x1.5738520d130e0p+7; 0x1.363333fc86cecp+7; 0x1.5823d7f51efb7p+7; 0x1.60a479fec99f2p+10; 0x1.a8f5c28f5c28fp+3; 0x1.38a3d70a3d70ap+3; 0x1.5ce147f130596p+6; 0x1.de1479d4d8341p+4; 0x1.303d701d9f4d3p+5; 0x1.1b030e3cd9a52p+5; 0x1.1e3d6f9767903p+4; 0x1.71eb851eb851fp+1; 0x1.2b7ae21101b00p+6; 0x1.b8f5c28f5c28fp+3; 0x1.2370a41a261bfp+6; 0x1.5ae2d1f1cfbb9p+7; 0x1.210a3df6db941p+5; 0x1.b9b851eb851ecp+6; 0x1.d6a3d816aceabp+5];
  [0x1.00f3d801b4352p+10; 0x1.599999fe43676p+7; 0x1.3eae13f4a98abp+7; 0x1.5923d7f51efb7p+7; 0x1.6af0000000000p+10; 0x1.adc28f5c28f5cp+3; 0x1.40a3d70a3d70ap+3; 0x1.5f3d701d9f4d3p+6; 0x1.e51eb851eb852p+4; 0x1.3000000000000p+5; 0x1.1d100ffda4053p+5; 0x1.17851dabe2718p+4; 0x1.7c28f5c28f5c3p+1; 0x1.30147a17f4129p+6; 0x1.d0a3d70a3d70ap+3; 0x1.207ae21101b00p+6; 0x1.5f1999fe43676p+7; 0x1.1dd70a3d70a3dp+5; 0x1.bf851deefe500p+6; 0x1.d91eb7cbb3c82p+5];
  [0x1.f7851dffc547ap+9; 0x1.50c29003eea21p+7; 0x1.3a666601bc98ap+7; 0x1.4f0a3df6db941p+7; 0x1.5f4eb7fe08af0p+10; 0x1.a1eb851eb851fp+3; 0x1.33851eb851eb8p+3; 0x1.5ac28fe260b2dp+6; 0x1.da1479d4d8341p+4; 0x1.2d70a3d70a3d7p+5; 0x1.190a3df6db941p+5; 0x1.0fae147ae147bp+4; 0x1.70a3d70a3d70ap+1; 0x1.2b7ae21101b00p+6; 0x1.bf0a3d70a3d71p+3; 0x1.19f5c209246bfp+6; 0x1.53666601bc98ap+7; 0x1.195c27e953155p+5; 0x1.b45c27e953155p+6; 0x1.d2b851eb851ecp+5];
  [0x1.fbb999fe43676p+9; 0x1.541999fe43676p+7; 0x1.3bdc280ae1049p+7; 0x1.53bd6ffc115dfp+7; 0x1.5f851dffc547ap+10; 0x1.9a8f5c28f5c29p+3; 0x1.30f5c28f5c28fp+3; 0x1.591eb80ecfa6ap+6; 0x1.ddeb862b27cbfp+4; 0x1.2ea3d816aceabp+5; 0x1.195c27e953155p+5; 0x1.0a3d6f9767903p+4; 0x1.68f5c28f5c28fp+1; 0x1.2b7ae21101b00p+6; 0x1.bdc28f5c28f5cp+3; 0x1.1747ae147ae14p+6; 0x1.54ae13f4a98abp+7; 0x1.1bae13f4a98abp+5; 0x1.b9999a1fd156ap+6; 0x1.d5999a1fd156ap+5];
  [0x1.01e8f601797ccp+10; 0x1.5a80000000000p+7; 0x1.4a1479f666235p+7; 0x1.623333fc86cecp+7; 0x1.670e14013ec46p+10; 0x1.a19999999999ap+3; 0x1.3f5c28f5c28f6p+3; 0x1.59cccc0379314p+6; 0x1.e7ae147ae147bp+4; 0x1.388f5c28f5c29p+5; 0x1.1e7ae1cde5d18p+5; 0x1.0d1eb851eb852p+4; 0x1.88f5c28f5c28fp+1; 0x1.3447ae147ae14p+6; 0x1.d8f5c28f5c28fp+3; 0x1.1ee147f130596p+6; 0x1.5d70a3f8982cbp+7; 0x1.1f999a1fd156ap+5; 0x1.c20a3df6db941p+6; 0x1.db47ae147ae14p+5];
  [0x1.fdfc28027d88cp+9; 0x1.58e147f130596p+7; 0x1.4ca3d7f51efb7p+7; 0x1.5eb8520d130e0p+7; 0x1.64c33400b88cap+10; 0x1.9f0a3d70a3d71p+3; 0x1.3a3d70a3d70a4p+3; 0x1.57a3d816aceabp+6; 0x1.de66666666666p+4; 0x1.3800000000000p+5; 0x1.1a00000000000p+5; 0x1.0bd70a3d70a3dp+4; 0x1.a666666666666p+1; 0x1.35b851eb851ecp+6; 0x1.dfae147ae147bp+3; 0x1.1ba3d816aceabp+6; 0x1.58b8520d130e0p+7; 0x1.1e51ec0b56755p+5; 0x1.ba7ae21101b00p+6; 0x1.db5c27e953155p+5]].
Definition nan_mask : list (list bool) :=
 [[false; false; false; false; false; false; false; false; true; false; false; false; false; true; false; false; false; false; false; false];
  [true; false; false; false; false; false; false; true; false; false; false; false; false; false; false; false; false; false; true; false];
  [false; false; false; false; false; false; false; false; false; false; false; false; true; false; false; false; false; false; false; false];
  [false; false; false; false; false; false; false; false; false; false; true; false; true; false; false; false; false; false; false; false];
  [false; false; false; false; false; false; false; false; false; true; false; false; false; false; false; false; false; false; false; false];
  [false; false; false; true; false; false; false; false; false; true; false; false; false; false; false; false; false; false; false; false];
  [false; false; true; false; false; false; false; false; false; false; false; false; false; false; false; false; false; false; false; false];
  [false; false; false; false; false; false; false; true; false; true; false; false; false; false; false; false; false; false; false; false];
  [false; false; false; false; true; false; false; false; false; false; false; false; false; false; false; false; false; true; false; false];
  [false; false; false; false; true; false; false; false; false; false; false; false; false; true; false; false; false; false; false; false];
  [false; false; false; false; false; false; false; false; false; false; true; false; false; false; false; false; false; false; false; false];
  [false; false; false; false; false; true; false; false; true; false; false; false; false; false; false; false; false; false; false; false];
  [false; false; false; false; false; false; false; false; false; false; false; true; false; false; true; false; false; false; true; false];
  [false; false; false; true; false; false; false; false; false; false; true; false; false; true; false; true; true; false; false; false];
  [false; false; false; false; false; false; true; false; false; false; false; false; false; false; false; false; false; false; true; true];
  [true; false; false; false; false; false; false; false; false; false; false; false; false; false; false; false; false; false; false; false];
  [false; false; false; false; false; false; false; false; false; false; false; false; false; false; false; false; false; false; false; false];
  [false; false; false; false; false; false; false; false; false; true; false; false; false; false; false; false; false; false; false; true];
  [false; true; false; false; false; false; false; false; true; false; false; false; false; false; false; false; false; true; false; false];
  [false; false; true; false; false; true; false; false; false; false; false; false; false; false; false; true; false; false; false; false];
  [false; true; false; true; false; false; false; false; false; false; false; false; false; false; false; false; false; false; false; false];
  [true; true; false; false; false; false; true; false; false; false; false; false; false; false; false; false; false; false; false; false];
  [false; false; true; false; false; false; false; true; true; true; false; true; false; false; true; false; false; false; false; false];
  [false; false; false; false; false; false; false; false; false; false; false; true; false; false; true; false; false; true; true; false];
  [false; false; false; false; false; false; false; false; true; false; false; false; false; false; false; false; false; false; false; false];
  [false; false; false; false; false; true; false; false; false; false; false; false; false; false; false; false; false; false; false; false];
  [false; false; false; false; false; false; false; true; false; false; false; false; false; false; false; false; false; false; false; true];
  [false; false; false; false; true; false; false; false; false; false; false; false; false; false; false; false; false; false; false; false];
  [false; false; true; false; false; true; false; true; false; true; true; false; false; false; true; false; false; false; false; true];
  [false; false; false; false; false; false; false; false; false; true; false; false; false; false; false; true; false; false; false; true];
  [false; false; false; false; false; false; false; false; false; false; false; false; true; false; false; false; false; false; false; true];
  [false; false; false; false; true; false; false; false; false; false; false; false; false; false; false; true; false; false; false; false];
  [false; true; true; false; false; false; false; false; false; false; false; false; false; false; false; false; false; false; false; true];
  [false; false; false; false; false; false; false; false; false; false; false; false; false; false; false; false; false; false; false; false];
  [false; false; false; false; false; false; false; false; true; false; false; false; false; false; false; false; false; false; false; false];
  [false; false; false; false; false; false; false; false; false; false; false; false; false; false; false; false; false; false; false; false];
  [false; true; false; false; false; false; false; true; false; false; false; false; false; false; false; false; false; false; false; false];
  [false; true; false; false; false; false; false; false; true; false; false; false; true; false; false; false; false; false; false; false];
  [false; false; false; false; false; true; true; false; true; false; false; false; false; false; true; false; false; false; false; false];
  [false; false; false; false; false; false; false; false; false; false; false; false; false; false; true; true; false; false; false; false];
  [false; false; false; false; false; false; true; false; false; false; false; false; false; false; false; false; false; false; false; false];
  [false; false; false; false; false; true; false; false; false; false; false; false; false; false; false; false; true; false; false; false];
  [false; false; false; false; false; false; false; false; false; false; false; false; false; false; true; false; false; false; false; false];
  [true; true; false; false; false; true; false; false; false; false; false; false; false; false; false; false; false; false; true; false];
  [false; false; false; false; false; false; false; false; false; false; false; false; false; false; false; false; false; false; false; false];
  [false; false; false; false; false; true; false; false; false; false; false; false; true; false; false; false; false; false; false; false];
  [false; false; false; true; false; false; false; false; false; false; true; false; false; false; false; false; false; false; false; false];
  [false; false; false; false; false; false; false; false; false; false; false; true; false; false; false; false; false; false; false; false];
  [false; false; false; false; false; false; false; false; false; false; false; false; true; false; true; false; false; false; false; false];
  [true; false; false; false; true; false; false; false; false; false; false; false; false; false; false; false; false; true; false; false];
  [false; false; false; false; false; false; false; false; false; true; false; false; false; false; false; false; false; false; false; false];
  [false; false; false; true; false; false; false; false; true; false; false; false; true; true; false; false; false; false; false; false];
  [false; false; false; false; false; false; false; false; false; true; false; false; false; false; false; false; false; false; false; false];
  [false; false; false; false; false; false; false; true; false; false; false; true; false; false; false; false; false; true; false; false];
  [false; false; false; true; false; false; false; false; true; false; false; false; false; false; false; false; false; true; false; false];
  [false; true; false; false; true; false; false; false; false; false; false; false; false; false; false; false; false; false; true; false];
  [false; false; true; false; false; true; true; false; false; false; false; false; true; false; false; false; true; false; false; false];
  [false; false; false; false; false; false; false; false; false; false; false; false; false; false; false; true; false; false; false; false];
  [false; false; false; false; false; false; false; false; false; true; false; false; false; false; true; false; false; false; true; false];
  [false; true; false; false; false; false; false; false; true; false; false; true; false; false; false; false; false; false; false; false];
  [false; true; false; false; false; false; false; false; false; false; false; false; false; false; false; false; false; false; false; false];
  [true; true; true; false; true; false; false; false; false; false; false; false; false; false; false; false; false; false; false; false];
  [false; false; true; false; false; false; false; false; true; false; false; false; false; true; false; false; false; false; false; true];
  [false; false; false; false; true; true; false; false; false; false; false; false; false; false; false; false; false; false; false; false];
  [false; false; false; false; false; true; false; false; false; false; false; true; false; false; false; false; false; false; true; false];
  [false; false; false; false; false; true; false; false; false; false; false; false; false; false; false; false; false; true; false; true];
  [false; false; false; false; false; false; true; false; false; true; false; false; true; false; false; false; false; false; false; false];
  [false; false; false; true; false; false; false; false; false; false; false; false; false; false; false; false; false; false; false; false];
  [false; false; false; false; false; false; true; false; false; false; false; false; true; false; false; false; false; false; false; false];
  [false; false; false; false; false; false; false; false; false; false; false; false; false; true; true; false; false; true; false; false];
  [false; false; false; false; true; true; false; false; false; false; false; false; false; false; false; false; false; false; false; false];
  [false; false; false; false; false; false; false; true; false; true; false; false; false; false; false; false; false; true; false; false];
  [false; false; false; false; false; false; true; false; false; false; false; false; false; true; false; false; false; false; true; false];
  [true; true; false; false; false; false; false; false; false; false; false; false; false; false; false; false; false; false; false; false];
  [false; false; false; true; false; true; false; false; false; false; false; false; false; true; true; false; false; false; false; false];
  [false; false; false; false; true; false; false; false; true; false; false; false; false; false; false; false; false; false; false; true];
  [false; false; false; false; false; true; false; false; false; true; false; true; false; false; false; false; false; true; false; false];
  [false; false; false; false; false; false; false; false; false; false; false; true; false; false; false; false; false; false; true; true];
  [false; false; false; false; false; false; false; false; false; false; false; false; false; false; false; false; false; false; false; false];
  [false; false; false; true; false; false; false; false; true; false; false; false; false; false; false; false; false; false; true; false];
  [true; false; false; true; true; false; false; false; false; false; false; false; false; false; false; false; true; false; false; false];
  [false; false; false; false; false; false; true; false; false; false; false; false; false; false; false; false; false; false; false; false];
  [false; false; false; false; false; true; false; false; false; false; false; false; false; false; false; false; true; false; false; false];
  [false; false; false; false; false; false; false; false; false; false; false; false; false; false; true; false; false; false; false; false];
  [false; false; false; false; false; false; false; false; false; false; true; false; false; false; false; false; false; false; false; false];
  [true; false; false; false; false; false; false; false; false; true; false; false; false; false; false; false; false; false; false; false];
  [false; true; false; false; false; false; false; false; false; false; false; false; false; false; false; false; false; false; false; false];
  [false; false; false; false; false; false; false; false; false; false; false; false; false; false; false; false; false; true; false; false];
  [false; false; false; false; false; true; false; false; false; false; false; false; false; false; false; false; false; false; false; false];
  [false; false; true; false; false; false; false; false; false; false; false; false; false; false; false; true; false; false; false; false];
  [false; false; true; false; false; false; false; false; false; false; false; false; true; true; false; false; false; false; false; true];
  [false; false; false; false; false; true; false; false; false; false; false; false; false; false; false; false; false; false; true; false];
  [false; true; false; false; false; false; false; false; false; false; false; false; false; false; true; false; false; false; true; false];
  [true; false; false; false; false; false; false; false; true; false; false; false; false; false; false; false; false; false; false; false];
  [false; false; false; false; true; false; false; false; false; false; false; false; true; false; false; false; false; false; false; false];
  [false; false; false; false; false; false; true; false; false; false; false; false; false; false; false; false; false; false; false; false];
  [false; false; false; false; true; false; false; false; true; false; false; false; false; false; false; false; false; false; false; false];
  [false; true; false; false; false; false; false; false; false; true; false; false; false; false; false; false; false; true; false; false];
  [false; true; false; false; false; false; false; false; true; false; true; false; false; false; false; false; false; false; false; false];
  [true; false; false; false; false; false; false; false; false; true; false; false; false; false; false; false; false; false; false; false];
  [false; false; false; false; false; false; false; false; false; false; false; false; false; false; false; false; false; false; false; true];
  [false; false; false; false; false; false; false; false; false; false; false; true; false; false; false; false; false; false; true; false];
  [false; false; false; false; false; true; false; false; false; false; true; false; true; false; false; false; false; false; false; false];
  [false; false; false; false; false; false; false; false; false; false; false; false; false; false; false; false; false; false; false; false];
  [false; false; false; false; false; false; true; false; false; false; false; false; false; true; false; false; false; false; false; false];
  [false; false; false; false; true; false; false; true; false; false; false; false; false; false; false; false; false; false; false; false];
  [false; false; false; false; true; false; false; true; false; false; false; false; false; true; false; false; false; false; false; false];
  [false; false; false; false; false; false; false; false; false; false; false; true; false; false; false; false; false; false; false; false];
  [false; false; false; false; false; false; false; false; true; false; false; false; false; true; false; false; false; false; true; false];
  [true; false; false; false; false; false; false; false; false; false; true; false; true; true; false; false; false; false; false; false];
  [false; false; false; false; false; false; false; false; true; false; false; false; true; false; false; false; false; false; false; false];
  [false; false; false; true; true; false; false; false; true; true; false; false; false; false; false; false; false; false; false; false];
  [true; false; false; false; false; false; false; true; false; false; true; false; false; false; false; true; false; false; false; false];
  [false; false; false; false; false; false; false; true; false; false; false; false; false; false; false; false; false; false; false; true];
  [false; false; false; false; false; false; false; true; false; true; false; false; false; false; false; true; false; false; false; false];
  [false; false; false; false; false; false; false; false; true; false; false; false; false; false; true; false; false; false; false; false];
  [false; false; true; false; false; false; false; false; false; false; false; false; false; false; true; false; false; false; false; false];
  [false; false; false; false; false; true; false; false; false; false; false; false; false; false; false; false; true; true; false; false];
  [false; false; false; false; false; false; true; false; false; false; false; false; false; false; false; false; true; false; false; false];
  [false; false; false; false; false; false; false; true; false; false; false; false; false; false; false; false; false; false; false; false];
  [false; false; false; false; false; true; false; false; false; false; false; false; false; false; false; false; false; false; false; false];
  [false; true; false; false; false; false; false; false; false; false; true; false; true; false; false; true; false; false; false; false];
  [false; false; false; false; false; false; false; false; false; false; false; false; false; false; false; false; false; false; false; false];
  [false; false; false; true; false; false; false; false; true; false; false; false; true; false; false; false; false; false; false; false];
  [false; false; false; false; false; false; false; false; false; false; false; false; false; false; false; false; false; false; false; false];
  [false; false; false; false; true; false; false; false; false; false; false; false; false; false; true; false; false; false; false; false];
  [false; false; true; false; false; false; true; false; false; false; false; false; false; false; false; true; false; false; false; false];
  [false; false; false; true; false; false; false; false; false; false; false; true; false; false; false; false; true; false; false; false];
  [false; false; false; false; false; false; false; false; false; false; false; true; true; false; false; false; false; false; false; false];
  [false; false; false; true; false; false; false; false; false; false; false; false; false; false; false; false; false; false; false; false];
  [false; false; false; false; false; false; false; false; false; false; true; false; false; false; false; false; false; false; false; false];
  [false; false; true; false; false; true; false; false; false; false; false; false; false; false; false; false; false; false; false; false];
  [false; true; false; false; false; false; false; false; false; false; true; false; false; false; true; false; false; false; true; false];
  [false; false; false; false; false; false; false; false; false; false; false; false; false; true; false; false; true; false; false; false];
  [false; true; false; false; true; false; false; false; false; false; false; false; false; false; false; false; false; false; false; false];
  [false; false; false; false; true; false; false; false; false; false; false; true; false; false; false; false; false; false; false; false];
  [false; false; false; false; false; false; false; false; false; false; false; false; false; false; true; false; false; false; false; false];
  [false; false; false; false; false; false; true; false; false; true; false; false; false; false; true; false; false; false; true; false];
  [false; false; false; false; false; false; false; false; false; false; false; false; false; false; false; false; false; false; false; false];
  [false; false; false; false; false; false; false; false; false; false; false; false; false; false; false; false; false; false; false; false];
  [false; false; false; false; true; false; false; true; false; false; false; true; true; false; false; false; false; false; false; false];
  [false; false; false; false; false; false; false; false; true; false; false; false; false; false; false; true; true; false; false; false];
  [false; false; false; false; false; false; true; false; false; false; false; true; false; false; false; false; false; true; false; true];
  [false; false; false; false; false; false; false; false; false; false; false; false; false; false; false; false; false; false; false; false];
  [false; false; true; false; false; false; true; true; false; false; false; false; true; false; false; false; false; false; true; false];
  [false; false; false; false; true; false; true; false; false; false; false; false; false; false; false; false; false; false; false; false];
  [true; true; true; false; false; false; false; false; false; false; false; true; false; false; false; false; false; false; false; false];
  [false; false; false; false; false; true; false; false; false; false; true; false; false; false; false; false; false; false; false; false];
  [false; true; false; false; false; false; false; true; false; false; false; false; false; false; false; false; false; false; false; true];
  [false; false; false; false; false; false; false; false; false; false; false; false; false; false; false; true; false; false; false; false];
  [false; false; false; false; false; false; false; false; false; false; false; false; false; false; false; false; false; true; false; false];
  [true; false; false; false; true; true; false; false; false; true; false; false; false; false; false; false; false; false; false; false];
  [false; false; false; false; false; false; false; false; false; false; false; false; false; true; false; false; false; false; false; false];
  [false; false; false; false; false; false; false; false; false; false; false; false; false; false; false; false; false; false; false; false];
  [false; false; false; false; false; false; false; false; true; false; false; false; false; true; false; false; false; false; false; false];
  [false; false; false; true; false; false; false; false; true; false; false; false; false; false; false; false; false; false; false; false];
  [true; false; false; false; false; false; false; false; false; false; false; false; false; false; false; false; false; false; true; false];
  [false; false; false; false; false; true; false; false; false; false; false; false; false; false; false; false; false; false; false; true];
  [false; false; false; false; false; false; false; false; false; false; false; false; false; false; false; false; false; false; false; false];
  [false; false; false; false; false; false; false; false; false; false; false; false; false; true; false; false; true; false; false; false];
  [false; false; false; false; false; false; false; false; false; false; false; false; false; false; false; false; false; false; false; false];
  [false; false; false; false; false; true; false; false; false; false; false; false; false; true; false; false; true; false; false; false];
  [false; false; true; false; false; false; false; true; true; false; false; false; true; false; true; false; false; false; false; false];
  [false; false; true; true; false; true; false; false; true; true; false; false; false; false; false; false; false; false; false; false];
  [false; false; false; false; false; false; true; false; false; false; false; false; false; false; true; false; false; true; false; false];
  [false; false; false; true; false; false; false; false; false; false; false; false; true; false; true; false; false; false; false; false];
  [false; false; false; false; false; true; false; false; false; false; false; false; false; false; false; false; true; false; false; false];
  [true; false; false; false; false; true; true; false; false; false; false; false; true; false; false; false; false; false; false; false];
  [false; false; false; true; false; false; false; true; false; false; false; false; false; false; false; false; false; false; false; false];
  [false; false; false; false; false; false; false; false; false; false; true; false; false; false; false; false; false; false; false; false];
  [false; true; false; false; false; false; false; false; false; false; false; false; false; false; false; false; false; true; false; false];
  [false; true; false; false; false; false; false; false; true; false; false; false; false; false; false; false; false; false; false; false];
  [false; false; false; false; false; false; false; false; false; false; false; false; false; false; false; false; false; false; true; false];
  [false; false; false; true; false; false; false; false; false; false; false; false; true; false; false; false; false; false; false; false];
  [true; false; false; false; true; false; false; false; false; false; false; false; false; false; false; false; false; false; false; false];
  [false; false; true; false; false; true; false; false; false; false; true; false; true; false; false; false; false; false; false; false];
  [false; false; false; false; false; false; false; false; false; false; false; false; false; false; false; false; false; false; false; false];
  [false; false; false; false; false; false; false; false; false; false; false; false; false; false; false; false; true; false; false; false];
  [false; false; false; false; false; false; false; false; false; true; false; false; false; false; false; false; false; false; false; false];
  [false; false; false; false; false; false; false; false; false; false; false; false; false; false; false; false; false; true; true; false];
  [false; true; false; false; false; false; false; false; false; false; false; false; false; false; false; false; false; false; true; false];
  [false; false; false; false; false; false; false; false; false; false; false; false; false; false; false; false; false; false; false; false];
  [false; false; false; false; true; false; false; false; false; false; false; false; false; false; false; true; false; false; false; false];
  [false; true; false; false; false; false; false; false; false; false; false; true; false; false; false; false; false; false; false; true];
  [false; false; false; false; false; false; false; false; true; false; false; false; true; true; false; false; false; false; false; false];
  [false; false; false; false; false; false; false; false; false; false; false; false; false; false; false; false; false; false; false; false];
  [false; false; false; false; false; false; false; false; false; false; false; false; false; false; false; false; false; false; false; false];
  [false; false; false; false; false; false; false; false; true; false; false; false; false; true; false; true; false; false; true; true];
  [false; false; false; true; false; true; false; false; false; false; false; false; false; false; false; false; false; false; false; false];
  [false; false; false; false; false; false; true; false; false; false; false; false; false; true; false; false; false; false; false; false];
  [false; true; false; false; false; false; false; false; false; true; false; false; false; false; false; false; false; false; false; false];
  [false; false; false; false; false; false; false; false; false; true; false; false; false; false; false; false; false; false; true; false];
  [false; false; false; false; false; false; false; false; false; false; false; false; false; false; false; false; false; false; false; true];
  [false; false; false; false; false; false; false; false; false; false; false; false; false; false; false; false; false; false; false; false];
  [false; false; false; false; false; false; false; false; false; false; false; false; false; false; false; false; false; false; false; false];
  [false; false; false; false; false; false; false; false; false; false; false; false; false; false; false; false; false; false; false; false];
  [false; false; false; false; false; false; false; false; false; false; false; false; false; false; false; false; false; false; false; false];
  [true; false; false; false; false; false; false; false; false; false; false; false; false; false; false; false; false; false; false; false];
  [true; false; false; false; false; false; false; false; false; true; false; true; false; false; false; true; false; false; false; false];
  [false; false; false; false; false; false; false; false; false; false; false; false; false; false; false; false; false; false; true; false];
  [false; false; false; false; false; false; false; false; false; true; false; false; true; false; false; false; false; false; false; false];
  [false; true; false; false; false; false; true; false; false; false; false; false; false; false; false; false; false; false; false; false];
  [false; false; false; false; false; false; false; true; false; false; false; false; false; false; false; false; false; false; false; true];
  [false; false; false; false; false; false; false; true; false; true; false; false; false; false; false; false; false; false; false; false];
  [false; false; false; false; false; false; false; true; false; false; false; false; false; false; false; false; false; false; false; false];
  [false; false; false; false; false; false; false; false; false; false; false; false; false; true; false; false; false; false; false; false];
  [false; false; false; false; true; false; false; true; false; false; false; false; false; true; false; false; false; false; false; false];
  [false; false; false; false; false; false; false; false; false; false; false; false; false; false; false; false; false; false; false; false];
  [false; false; false; false; false; false; false; false; false; false; false; false; false; false; false; false; true; false; false; true];
  [false; false; false; false; false; false; false; false; false; false; false; false; false; false; false; false; false; false; false; false];
  [false; false; false; false; false; false; true; false; false; false; false; true; false; false; false; true; false; false; false; false];
  [false; true; false; true; false; false; false; false; false; false; false; false; false; false; false; false; true; false; false; false];
  [true; false; false; false; false; false; false; false; false; false; false; false; false; false; true; false; false; false; false; false];
  [false; false; false; false; true; true; false; true; false; false; false; false; false; false; false; false; false; false; false; false];
  [false; false; false; false; false; false; false; false; false; false; false; false; false; false; false; false; false; false; true; false];
  [false; false; false; false; true; false; false; false; false; false; false; false; false; true; false; false; false; false; false; false];
  [false; false; false; false; false; false; true; false; true; false; false; false; false; false; false; false; false; false; false; false];
  [false; false; false; true; false; false; true; false; false; false; false; false; false; false; false; false; false; false; false; false];
  [false; false; false; false; false; true; false; false; false; false; false; false; false; false; false; false; false; false; true; false];
  [false; false; false; false; false; false; false; false; false; false; false; false; false; false; false; false; false; false; false; false];
  [false; false; false; true; false; false; false; false; false; false; false; false; false; false; false; false; false; false; false; false];
  [false; false; false; false; false; false; false; false; false; false; false; false; false; true; false; false; false; false; false; true];
  [false; false; false; false; false; false; false; true; false; false; false; false; false; false; false; true; false; false; false; false];
  [false; false; false; false; false; false; false; false; false; false; false; false; false; false; false; false; false; false; false; false];
  [false; false; false; false; false; false; false; false; false; false; false; true; false; false; true; false; false; false; false; false];
  [false; false; false; false; false; false; false; false; false; false; false; false; false; false; false; false; false; false; false; false];
  [false; false; false; false; false; false; false; false; false; false; false; false; false; false; false; false; false; false; false; false];
  [false; false; true; false; false; false; false; false; true; false; false; false; false; false; false; false; false; false; false; false];
  [false; false; false; false; false; false; false; false; false; true; false; false; false; false; false; false; false; false; true; false];
  [false; false; false; false; false; false; false; false; false; false; false; false; true; false; false; true; false; false; false; false];
  [false; false; false; false; false; false; true; true; false; false; false; false; false; false; false; false; false; false; false; false];
  [false; false; false; false; false; false; false; false; false; false; true; true; false; false; false; false; false; false; false; false];
  [false; true; false; false; false; false; false; false; true; false; false; false; false; false; false; false; false; false; false; false];
  [false; false; true; false; true; false; false; false; false; false; false; false; false; false; false; false; false; false; false; false];
  [false; false; true; false; false; false; false; false; false; false; false; false; false; false; false; false; false; false; false; false];
  [false; false; true; false; false; false; true; false; false; false; false; false; false; false; false; false; false; false; false; false];
  [true; false; true; false; false; false; false; false; false; false; false; false; false; false; false; false; false; false; false; false];
  [false; false; false; false; false; false; false; false; false; false; false; false; false; false; false; false; false; false; false; false];
  [false; false; false; false; false; false; false; false; false; false; false; false; false; false; false; false; false; false; false; false];
  [false; false; false; false; false; false; false; true; false; false; false; false; false; false; false; false; false; false; false; false];
  [false; true; false; false; true; false; false; false; false; false; false; false; false; false; false; false; false; false; false; false];
  [false; false; false; false; false; false; false; false; false; false; false; false; false; false; true; false; false; false; false; false];
  [false; true; false; false; false; false; false; false; false; false; false; false; false; false; true; false; true; false; false; false];
  [false; false; false; false; false; false; false; false; false; false; false; false; false; false; false; false; true; false; false; false];
  [false; true; false; false; false; false; true; false; false; false; false; false; false; false; false; false; false; false; true; false];
  [false; false; false; false; false; false; false; false; false; false; false; false; false; false; false; false; false; true; false; false];
  [false; false; false; false; false; true; false; false; true; false; false; false; false; false; false; false; false; false; false; false];
  [false; false; false; false; false; false; false; false; true; false; false; false; false; false; false; false; false; false; false; false];
  [false; false; false; false; false; false; false; false; false; false; false; false; true; true; false; false; true; false; false; false];
  [true; false; false; false; false; false; false; true; false; false; false; false; false; false; false; false; false; false; false; true];
  [false; false; false; false; false; false; false; false; false; false; false; false; false; false; false; false; false; false; false; false];
  [false; false; false; false; false; false; false; false; false; false; false; false; false; false; false; false; false; false; false; false];
  [false; false; false; false; false; true; false; false; false; false; false; false; false; false; false; false; false; false; false; false];
  [false; false; true; false; false; false; false; false; false; false; false; false; false; false; false; false; false; false; false; false];
  [false; true; false; false; false; true; false; false; false; false; false; true; false; false; false; false; false; false; false; false];
  [false; false; false; false; false; false; false; false; false; true; false; false; false; false; false; false; false; false; false; false];
  [false; false; false; false; false; false; false; false; false; true; false; false; false; false; false; false; false; false; false; true];
  [false; false; false; false; true; false; false; false; false; false; false; false; false; false; false; true; false; false; false; false];
  [false; false; false; false; false; false; true; false; false; false; false; false; false; false; true; false; false; false; false; false];
  [false; false; false; false; false; false; false; false; true; false; false; false; false; false; false; false; false; true; false; false];
  [false; false; false; false; false; false; false; true; false; false; false; false; false; false; false; false; false; false; false; true];
  [false; false; false; false; false; false; false; false; false; false; false; false; false; false; true; false; false; false; true; false];
  [true; false; false; false; false; false; false; false; false; false; false; false; false; false; false; false; false; false; false; false];
  [false; true; false; false; false; false; true; false; false; false; true; false; true; false; false; false; false; true; true; false];
  [false; false; false; false; false; false; false; false; false; false; false; false; false; false; false; false; false; true; false; false];
  [false; false; false; false; false; false; false; false; false; false; false; false; true; false; false; false; false; false; false; true];
  [false; false; true; false; false; false; false; true; true; false; false; false; false; false; false; false; false; false; false; false];
  [false; false; false; false; false; false; false; false; false; false; true; false; false; false; false; false; false; false; false; false];
  [false; false; false; false; false; true; false; false; false; false; false; false; true; false; false; false; false; false; false; false];
  [false; false; false; false; false; false; false; false; false; false; true; false; false; false; false; false; false; false; false; false];
  [false; true; false; false; false; false; false; false; false; false; false; false; false; true; false; false; false; false; false; false];
  [false; false; false; false; false; true; false; false; false; false; false; false; false; false; false; false; true; false; false; false];
  [false; false; false; false; false; false; true; false; false; false; true; false; false; false; false; false; false; false; false; false];
  [false; false; false; false; false; true; true; false; false; false; false; false; false; true; false; false; false; false; false; false];
  [false; false; false; false; false; false; false; false; false; false; false; false; false; false; false; false; false; false; false; false];
  [false; false; false; false; false; false; false; false; false; false; false; false; false; false; false; false; false; false; false; false];
  [false; false; false; false; true; false; false; false; false; false; false; false; false; false; false; false; false; false; true; false];
  [false; true; false; false; false; false; false; false; false; true; false; false; false; true; false; false; false; false; false; false];
  [false; false; false; false; false; false; false; true; false; false; false; false; true; false; false; false; false; true; false; false];
  [false; false; false; false; false; false; false; true; false; false; false; false; false; false; false; false; false; true; false; false];
  [false; false; false; false; false; false; false; false; false; false; true; false; false; true; false; false; false; false; true; false];
  [false; false; false; false; false; false; false; false; false; false; false; false; false; false; false; false; false; false; false; false];
  [false; false; false; false; false; false; false; true; true; false; false; false; false; false; false; true; false; false; false; false];
  [true; false; false; false; false; false; false; false; true; false; false; false; false; false; false; false; false; true; false; false];
  [false; false; false; false; false; false; false; false; false; false; true; false; false; false; false; true; false; false; false; false];
  [false; false; false; false; false; false; false; false; true; false; false; false; false; false; false; false; false; false; false; true];
  [false; false; false; false; false; false; false; false; false; false; false; false; false; false; false; false; false; false; true; false];
  [true; false; true; false; false; false; false; false; false; false; true; false; false; false; false; false; true; false; false; false];
  [true; false; false; false; false; false; false; false; false; false; false; false; false; false; false; false; false; false; true; false];
  [false; false; false; false; false; false; false; false; false; false; false; false; false; true; false; false; false; false; false; false];
  [true; false; false; false; false; false; false; true; false; false; false; false; false; false; false; false; false; false; false; false];
  [false; false; false; false; false; false; false; false; false; false; false; false; false; false; false; false; false; false; false; false];
  [false; false; false; false; false; false; false; false; false; false; false; false; false; false; false; false; false; false; true; false];
  [false; false; false; true; false; false; false; false; false; false; false; false; false; false; false; false; false; true; false; true];
  [false; false; false; false; false; false; false; false; false; false; false; false; false; false; false; false; false; false; false; false];
  [false; false; false; false; false; false; false; false; false; false; false; true; false; false; false; false; false; false; false; false];
  [true; false; false; true; false; false; false; false; false; false; false; false; false; false; false; false; false; false; false; false];
  [false; false; false; false; false; false; false; false; false; false; false; false; false; false; false; false; false; false; false; false];
  [false; true; false; false; false; false; false; false; false; false; false; false; true; false; false; false; false; true; false; false];
  [true; false; false; false; false; false; false; false; false; true; false; false; false; false; false; false; false; false; false; false];
  [false; false; false; false; false; false; false; false; false; false; false; true; false; false; false; true; false; false; false; false];
  [false; false; false; false; false; false; false; false; false; false; false; false; false; false; false; false; false; true; false; false];
  [false; false; false; true; false; false; false; false; false; false; false; true; false; false; false; false; false; false; false; false];
  [true; false; false; false; false; false; true; false; false; false; false; false; false; false; false; false; false; false; false; false];
  [false; false; false; false; false; false; true; false; false; false; false; false; true; false; false; false; false; false; false; false];
  [true; false; false; false; false; false; true; false; false; false; false; false; false; false; false; true; false; false; false; false];
  [false; false; false; false; false; false; false; false; false; false; false; false; false; false; false; false; false; false; false; false];
  [false; false; true; false; false; true; true; false; false; false; false; false; false; false; false; false; false; false; false; false];
  [false; false; false; false; false; false; false; false; false; false; false; false; false; false; false; false; false; false; false; false];
  [false; false; false; false; true; false; false; false; false; false; false; false; true; false; false; false; false; false; false; false];
  [false; false; false; false; false; false; false; true; false; false; false; false; false; false; false; false; false; false; true; false];
  [false; false; false; false; false; false; false; false; false; true; false; false; false; true; false; false; false; false; false; false];
  [false; false; false; true; false; false; false; false; false; false; false; false; false; false; false; false; false; false; false; false];
  [false; false; false; false; false; false; false; false; false; false; false; false; false; true; false; false; true; false; true; false];
  [false; false; false; true; false; false; false; false; false; false; false; false; false; false; false; false; false; false; false; false];
  [true; false; false; false; false; false; false; false; true; false; false; false; false; false; false; false; false; false; false; false];
  [false; false; false; false; false; false; false; false; false; false; false; false; false; false; false; false; false; false; false; false];
  [false; false; false; false; false; true; false; false; false; false; false; false; false; false; false; false; false; false; false; false];
  [false; false; true; false; false; false; false; false; false; false; false; false; false; false; false; false; false; false; false; false]].
Definition ref_iewma : list (list float) :=
 [[0x1.935d9961218b3p-12; 0x1.039fcf8e02d83p-12; 0x1.6b981042573c5p-12];
  [0x1.039fcf8e02d83p-12; 0x1.2c7d31555fcedp-12; 0x1.bbd5b8cfe63e1p-13];
  [0x1.6b981042573c4p-12; 0x1.bbd5b8cfe63e0p-13; 0x1.44a91a3016fc6p-11]].
Definition ref_combinator : list (list float) :=
 [[0x1.7411af9bf4f26p-12; 0x1.b51fd84b91712p-13; 0x1.3dd79c2b85fe8p-12];
  [0x1.b51fd84b91713p-13; 0x1.1c836025d53bfp-12; 0x1.8e92f1f37389cp-13];
  [0x1.3dd79c2b85fe8p-12; 0x1.8e92f1f37389cp-13; 0x1.12b54f75f0066p-11]].
Definition ref_iewma_nan : list (list float) :=
 [[0x1.b81b4f034fdf6p-13; 0x1.f0862b82df2c8p-14; 0x1.7523d0283b10ap-13; 0x1.475ad2212ae9dp-13; 0x1.f86dfd1e528dap-14; 0x1.b04aa8f405c9cp-16; 0x1.1b782235246f3p-13; 0x1.a1cce789e19f4p-15; 0x1.9e86be868457fp-14; 0x1.3ccff1f159eb8p-14; 0x1.82ad2f48bf16dp-16; 0x1.665702ddeb1bdp-14; 0x1.8c571889c5620p-15; 0x1.564689d78c349p-15; 0x1.00778573fa7f9p-14; 0x1.558412d3ff3edp-14; 0x1.fdb8b3c10f7f5p-14; 0x1.d61fec1e7522bp-15; 0x1.1497a0f7b42edp-14; 0x1.914a868e46b9dp-15];
  [0x1.f0862b82df2c8p-14; 0x1.a7f3f5b14fefep-13; 0x1.049f9f860a46cp-13; 0x1.1388d3a4e4237p-13; 0x1.b6d3709a2e552p-14; 0x1.49fc5edb22b12p-17; 0x1.f86fdb15ab0b3p-14; 0x1.87577b6e41d48p-15; 0x1.897a655f756d4p-14; 0x1.3c3dc674a9bddp-14; 0x1.d0acaede4041bp-16; 0x1.5b476ec4963fcp-14; 0x1.ed76368651fc7p-14; 0x1.be77f20f4fbffp-15; 0x1.572c891dc3b96p-14; 0x1.3e4dd9fdef9d4p-14; 0x1.ca0d6d0abec3cp-14; 0x1.6c249abf423fep-15; 0x1.2f3020787543dp-14; 0x1.f032d95422e51p-15];
  [0x1.7523d0283b10ap-13; 0x1.049f9f860a46cp-13; 0x1.60eb52e0f6344p-12; 0x1.9d67b1df9e5ecp-13; 0x1.19ec3deb42ab9p-13; 0x1.6524dafcc597dp-15; 0x1.78e6bddd56377p-13; 0x1.ef7e58e410fc7p-15; 0x1.bdfb85e9a20e1p-14; 0x1.98ad76cdd4a86p-14; 0x1.66b69c9e93129p-15; 0x1.00aa8c83a8352p-14; 0x1.dccd1024cc5f6p-16; 0x1.c446478e398aap-15; 0x1.29e6b881db634p-13; 0x1.28066598b08c4p-14; 0x1.32e710bf899c1p-13; 0x1.df12ca3945cc6p-15; 0x1.1b28faa0628eep-14; 0x1.b4e6e9e259e69p-15];
  [0x1.475ad2212ae9cp-13; 0x1.1388d3a4e4237p-13; 0x1.9d67b1df9e5ecp-13; 0x1.d3244f15e354bp-12; 0x1.44df2f8b85102p-13; 0x1.53d9b8cf0aeb5p-15; 0x1.06f1950cc2d4dp-12; 0x1.5befcf1427299p-15; 0x1.dc8302daa4af4p-14; 0x1.6b251486faabcp-14; 0x1.619b84a6b156ap-17; 0x1.f66e4cdd4c74fp-14; 0x1.4bf5fb38ae8fdp-17; 0x1.6098e2c6fb50bp-15; 0x1.ec2405ab682fcp-14; 0x1.a99f2c6a47512p-14; 0x1.35dcdb58a5562p-13; 0x1.be26fa18fa41ep-15; 0x1.676194d0369f1p-14; 0x1.8680b17e4688dp-15];
  [0x1.f86dfd1e528d9p-14; 0x1.b6d3709a2e552p-14; 0x1.19ec3deb42ab8p-13; 0x1.44df2f8b85102p-13; 0x1.04b26507b0ac7p-12; 0x1.814970479eceap-17; 0x1.6e6ced917fb21p-13; 0x1.a68c4fb304364p-15; 0x1.37fbe48eec26cp-14; 0x1.ddb49157c9e89p-15; 0x1.f93d24ba51b0ep-18; 0x1.665da31ee45a2p-14; 0x1.33d6181ca1b99p-15; 0x1.2f45ba5d49cb6p-16; 0x1.b4bfc2acdc9a4p-14; 0x1.f090e25e54fafp-15; 0x1.e0eb39053a418p-14; 0x1.34e2b55a74917p-15; 0x1.bc0e0539c2e02p-15; 0x1.eae6bf2ac56e5p-15];
  [0x1.b04aa8f405c9cp-16; 0x1.49fc5edb22b11p-17; 0x1.6524dafcc597cp-15; 0x1.53d9b8cf0aeb5p-15; 0x1.814970479ece8p-17; 0x1.49d3c92ae8e8fp-12; 0x1.852ccb4b9632ap-16; 0x1.d9b1d71edc8b7p-16; 0x1.488ebe1b39a59p-14; 0x1.4801b58e0501bp-14; 0x1.eca5167bba11ap-15; 0x1.5fec1d2687951p-13; 0x1.84a22f44ffb7cp-13; 0x1.4dd80b46f60d7p-15; 0x1.1d224f759796bp-13; 0x1.efeb76f789a87p-16; 0x1.cd4934ee105c7p-17; 0x1.8cc0e3d861335p-15; 0x1.c3c94cd3a2822p-15; 0x1.42f1ff7eada11p-15];
  [0x1.1b782235246f2p-13; 0x1.f86fdb15ab0b6p-14; 0x1.78e6bddd56377p-13; 0x1.06f1950cc2d4dp-12; 0x1.6e6ced917fb21p-13; 0x1.852ccb4b9632ap-16; 0x1.967a397630cc0p-11; 0x1.14f38e40ef2fcp-14; 0x1.b29e1d450bb87p-14; 0x1.d81c146df2725p-14; 0x1.99071a33a57eep-16; 0x1.de3b1892aa36bp-14; 0x1.1227c4a11bd44p-14; 0x1.7aa68784c86b7p-15; 0x1.4a411979aa374p-13; 0x1.49b464411f454p-15; 0x1.190c6a4a94ae1p-13; 0x1.d1e26270c46e7p-15; 0x1.041b57ee62c38p-14; 0x1.92c620d28ff61p-16];
  [0x1.a1cce789e19f6p-15; 0x1.87577b6e41d48p-15; 0x1.ef7e58e410fc7p-15; 0x1.5befcf1427299p-15; 0x1.a68c4fb304364p-15; 0x1.d9b1d71edc8b7p-16; 0x1.14f38e40ef2fep-14; 0x1.0bf9342db431ep-12; 0x1.f1d34d8b091cfp-15; 0x1.5939608147089p-14; 0x1.83944bff821e8p-15; 0x1.2b89e6ac43340p-14; 0x1.7d9780a9ed307p-13; 0x1.afca391bd4327p-16; 0x1.3c7ddad58ebfep-14; 0x1.358aec27fe6abp-14; 0x1.1b5ca5ca12718p-14; 0x1.f4c10e20670b0p-15; 0x1.8412455d784b7p-15; 0x1.a498de2d43b4cp-15];
  [0x1.9e86be868457fp-14; 0x1.897a655f756d5p-14; 0x1.bdfb85e9a20e1p-14; 0x1.dc8302daa4af4p-14; 0x1.37fbe48eec26cp-14; 0x1.488ebe1b39a5ap-14; 0x1.b29e1d450bb88p-14; 0x1.f1d34d8b091cfp-15; 0x1.da074636b5d45p-13; 0x1.f414220c5e3e5p-14; 0x1.1a3cc6d628053p-14; 0x1.2a8a36e99acf5p-13; 0x1.60d01c1ccaba3p-13; 0x1.961aa5e8452f1p-15; 0x1.d9d428e70531dp-14; 0x1.ddb07db6b7cf5p-14; 0x1.7b7c951849d76p-14; 0x1.399b2df417b6dp-14; 0x1.2ac115c33172ap-13; 0x1.f03dde849f2ecp-15];
  [0x1.3ccff1f159eb8p-14; 0x1.3c3dc674a9bddp-14; 0x1.98ad76cdd4a86p-14; 0x1.6b251486faabcp-14; 0x1.ddb49157c9e8ap-15; 0x1.4801b58e0501cp-14; 0x1.d81c146df2726p-14; 0x1.5939608147089p-14; 0x1.f414220c5e3e4p-14; 0x1.13c33e1ac7c1bp-12; 0x1.0a5d592b83b97p-14; 0x1.54fd63888fd44p-13; 0x1.2e63af3e47d6cp-13; 0x1.0c80d2a4c439bp-14; 0x1.28a4805af8195p-13; 0x1.7159053c17ea4p-14; 0x1.24d799d93785dp-14; 0x1.544f54775ec6bp-14; 0x1.90ae232dfaa54p-14; 0x1.b799ad8117ffdp-15];
  [0x1.82ad2f48bf16fp-16; 0x1.d0acaede4041cp-16; 0x1.66b69c9e9312bp-15; 0x1.619b84a6b156ap-17; 0x1.f93d24ba51b0ep-18; 0x1.eca5167bba11ap-15; 0x1.99071a33a57eep-16; 0x1.83944bff821e8p-15; 0x1.1a3cc6d628054p-14; 0x1.0a5d592b83b97p-14; 0x1.3f995a1ca6aa2p-13; 0x1.3d397d88ea0a6p-14; 0x1.68f8e23d227c3p-14; 0x1.0893faf26d8e3p-15; 0x1.031d201eef5e3p-14; 0x1.b2246ad6f986fp-15; 0x1.18a0b990a3e0fp-15; 0x1.a02ad2e39bd95p-15; 0x1.a6a3620bb2f78p-15; 0x1.b1a344ebc2f2ap-16];
  [0x1.665702ddeb1bdp-14; 0x1.5b476ec4963fcp-14; 0x1.00aa8c83a8352p-14; 0x1.f66e4cdd4c750p-14; 0x1.665da31ee45a2p-14; 0x1.5fec1d2687951p-13; 0x1.de3b1892aa36ap-14; 0x1.2b89e6ac43340p-14; 0x1.2a8a36e99acf4p-13; 0x1.54fd63888fd44p-13; 0x1.3d397d88ea0a6p-14; 0x1.2c7a34692ecfcp-10; 0x1.db6173a24c6afp-12; 0x1.5367a4df2ee20p-14; 0x1.22a33d3b373f0p-13; 0x1.7acfce4bdb316p-13; 0x1.2ed07167da830p-14; 0x1.a6f48c7f39837p-14; 0x1.e3d0d0739485ap-14; 0x1.ff67ed7ed59bep-15];
  [0x1.8c571889c5621p-15; 0x1.ed76368651fcap-14; 0x1.dccd1024cc5f4p-16; 0x1.4bf5fb38ae8fep-17; 0x1.33d6181ca1b99p-15; 0x1.84a22f44ffb7cp-13; 0x1.1227c4a11bd44p-14; 0x1.7d9780a9ed308p-13; 0x1.60d01c1ccaba2p-13; 0x1.2e63af3e47d6dp-13; 0x1.68f8e23d227c2p-14; 0x1.db6173a24c6afp-12; 0x1.32ccdbb52d0d0p-9; 0x1.1977c1b06eff4p-14; 0x1.606a958813ba6p-12; 0x1.a0a1c98e5b274p-13; 0x1.2857185b8e8f3p-14; 0x1.f5ecbf9414597p-15; 0x1.b146864588f8ep-14; 0x1.24e87f1d52823p-13];
  [0x1.564689d78c348p-15; 0x1.be77f20f4fbffp-15; 0x1.c446478e398a9p-15; 0x1.6098e2c6fb50bp-15; 0x1.2f45ba5d49cb7p-16; 0x1.4dd80b46f60d8p-15; 0x1.7aa68784c86b7p-15; 0x1.afca391bd4328p-16; 0x1.961aa5e8452f2p-15; 0x1.0c80d2a4c439bp-14; 0x1.0893faf26d8e3p-15; 0x1.5367a4df2ee20p-14; 0x1.1977c1b06eff4p-14; 0x1.e16af751f0153p-14; 0x1.dc23cc8271957p-14; 0x1.83f9b4e661cb3p-15; 0x1.6cceebfa53710p-15; 0x1.35073d296d9adp-15; 0x1.67726c21bdb5cp-15; 0x1.9d2aca4afa46cp-16];
  [0x1.00778573fa7f9p-14; 0x1.572c891dc3b97p-14; 0x1.29e6b881db634p-13; 0x1.ec2405ab682fcp-14; 0x1.b4bfc2acdc9a4p-14; 0x1.1d224f759796bp-13; 0x1.4a411979aa373p-13; 0x1.3c7ddad58ebfep-14; 0x1.d9d428e70531dp-14; 0x1.28a4805af8195p-13; 0x1.031d201eef5e4p-14; 0x1.22a33d3b373f0p-13; 0x1.606a958813ba6p-12; 0x1.dc23cc8271957p-14; 0x1.c83fde45b3008p-11; 0x1.80216a74c7a01p-14; 0x1.e88fa0f2b278cp-15; 0x1.1ea91ae030424p-14; 0x1.7e475a00b4e0ap-14; 0x1.e7dd6c3dc9161p-15];
  [0x1.558412d3ff3ecp-14; 0x1.3e4dd9fdef9d4p-14; 0x1.28066598b08c4p-14; 0x1.a99f2c6a47511p-14; 0x1.f090e25e54fb0p-15; 0x1.efeb76f789a87p-16; 0x1.49b464411f454p-15; 0x1.358aec27fe6abp-14; 0x1.ddb07db6b7cf6p-14; 0x1.7159053c17ea4p-14; 0x1.b2246ad6f986ep-15; 0x1.7acfce4bdb315p-13; 0x1.a0a1c98e5b275p-13; 0x1.83f9b4e661cb2p-15; 0x1.80216a74c7a01p-14; 0x1.c45e26f1933f7p-12; 0x1.2240846c8aaaep-14; 0x1.05f977aaddfa0p-14; 0x1.281ca05a10ef4p-14; 0x1.cd92084562632p-15];
  [0x1.fdb8b3c10f7f5p-14; 0x1.ca0d6d0abec3cp-14; 0x1.32e710bf899c1p-13; 0x1.35dcdb58a5562p-13; 0x1.e0eb39053a418p-14; 0x1.cd4934ee105c6p-17; 0x1.190c6a4a94ae1p-13; 0x1.1b5ca5ca12718p-14; 0x1.7b7c951849d77p-14; 0x1.24d799d93785ep-14; 0x1.18a0b990a3e0fp-15; 0x1.2ed07167da831p-14; 0x1.2857185b8e8f3p-14; 0x1.6cceebfa53710p-15; 0x1.e88fa0f2b278cp-15; 0x1.2240846c8aaaep-14; 0x1.84caa72b5b619p-13; 0x1.0ff533203fc8fp-14; 0x1.2941337b27300p-14; 0x1.ab93ff8d11897p-15];
  [0x1.d61fec1e7522ap-15; 0x1.6c249abf423fep-15; 0x1.df12ca3945cc5p-15; 0x1.be26fa18fa41ep-15; 0x1.34e2b55a74918p-15; 0x1.8cc0e3d861336p-15; 0x1.d1e26270c46e8p-15; 0x1.f4c10e20670b1p-15; 0x1.399b2df417b6ep-14; 0x1.544f54775ec6dp-14; 0x1.a02ad2e39bd94p-15; 0x1.a6f48c7f39837p-14; 0x1.f5ecbf9414596p-15; 0x1.35073d296d9acp-15; 0x1.1ea91ae030424p-14; 0x1.05f977aaddf9fp-14; 0x1.0ff533203fc8fp-14; 0x1.1c4eb2ca3afc7p-13; 0x1.fb9e1396b99dap-15; 0x1.93ed7ed5769b3p-16];
  [0x1.1497a0f7b42edp-14; 0x1.2f3020787543dp-14; 0x1.1b28faa0628eep-14; 0x1.676194d0369f0p-14; 0x1.bc0e0539c2e02p-15; 0x1.c3c94cd3a2823p-15; 0x1.041b57ee62c39p-14; 0x1.8412455d784b6p-15; 0x1.2ac115c331729p-13; 0x1.90ae232dfaa54p-14; 0x1.a6a3620bb2f78p-15; 0x1.e3d0d0739485bp-14; 0x1.b146864588f8fp-14; 0x1.67726c21bdb5dp-15; 0x1.7e475a00b4e0ap-14; 0x1.281ca05a10ef4p-14; 0x1.2941337b27301p-14; 0x1.fb9e1396b99dap-15; 0x1.3eefdcfa5b449p-13; 0x1.5fec0af93443fp-15];
  [0x1.914a868e46b9dp-15; 0x1.f032d95422e51p-15; 0x1.b4e6e9e259e6ap-15; 0x1.8680b17e4688dp-15; 0x1.eae6bf2ac56e5p-15; 0x1.42f1ff7eada10p-15; 0x1.92c620d28ff60p-16; 0x1.a498de2d43b4cp-15; 0x1.f03dde849f2edp-15; 0x1.b799ad8117ffdp-15; 0x1.b1a344ebc2f2ap-16; 0x1.ff67ed7ed59bep-15; 0x1.24e87f1d52823p-13; 0x1.9d2aca4afa46ep-16; 0x1.e7dd6c3dc9162p-15; 0x1.cd92084562634p-15; 0x1.ab93ff8d11897p-15; 0x1.93ed7ed5769b3p-16; 0x1.5fec0af93443fp-15; 0x1.0860e5ff445b0p-13]].
