-Q theories Verif
theories/Field.v
theories/Zp.v
theories/Gold.v
theories/ModelLC.v
theories/SpecLC.v
theories/ProofsLC.v
theories/ModelCS.v
theories/SpecCS.v
theories/ProofsCS.v
theories/ModelBoolean.v
theories/SpecBoolean.v
theories/ProofsBoolean.v
theories/ModelUint32.v
theories/SpecUint32.v
theories/ProofsUint32.v
theories/ProofsWord.v
theories/ProofsAddmany.v
theories/ModelOperator.v
theories/SpecOperator.v
theories/ProofsOperator.v
theories/ProofsRange.v
theories/ModelCbmt.v
theories/SpecCbmt.v
theories/ProofsCbmt.v
theories/ProofsSolve.v
theories/ModelMimc.v
theories/SpecMimc.v
theories/ProofsMimc.v
theories/ModelSponge.v
theories/SpecSponge.v
theories/ProofsSponge.v
theories/ProofsFlow.v
theories/ModelSha256.v
theories/SpecSha256.v
theories/ProofsChunks.v
theories/ProofsSha256.v
theories/ModelBlake2s.v
theories/SpecBlake2s.v
theories/ProofsBlake2s.v
theories/ProofsBlake2sTop.v
theories/Poly.v
theories/Module.v
theories/ModelGroth16.v
theories/SpecGroth16.v
theories/ProofsGroth16.v
theories/ModTac.v
theories/ModelTranscript.v
theories/ModelBulletproofs.v
theories/SpecBulletproofs.v
theories/ProofsIPP.v
theories/ProofsBulletproofs.v
theories/ProofsBulletproofs2.v
theories/ProofsBulletproofs3.v
theories/ModelCli.v
theories/SpecCli.v
theories/ModelContract.v
theories/ProofsCli.v
theories/ModelPC.v
theories/SpecPC.v
theories/ProofsPC.v
theories/ProofsPC2.v
theories/ModelMarlin.v
theories/SpecMarlin.v
theories/ProofsMarlinCS.v
theories/ProofsMarlin.v
theories/ProofsMarlin2.v
theories/ProofsMarlin3.v
theories/ProofsMarlin4.v
theories/ProofsMarlin5.v
theories/AttackMarlin.v
theories/ProofsMarlin6.v
theories/ProofsMarlin7.v
theories/ExMarlin.v
theories/ModelAsvc.v
theories/SpecAsvc.v
theories/ProofsAsvc.v
theories/ProofsAsvc2.v
theories/ProofsAsvc3.v
theories/ModelPlonk.v
theories/SpecPlonk.v
theories/AttackPlonk.v
theories/ProofsPlonk1.v
theories/ProofsPlonk2.v
theories/ProofsPlonk3.v
theories/ProofsPlonk4.v
theories/ProofsPlonk5.v
theories/ProofsPlonk6.v
theories/ProofsPlonk7.v
theories/ProofsPlonk8.v
theories/ProofsPlonk9.v
theories/ProofsPlonk10.v
theories/ProofsPlonk11.v
theories/ProofsPlonk12.v
theories/ProofsPlonk13.v
theories/ExPlonk.v
theories/SpecMarlin2.v
theories/ProofsMarlin8.v
theories/ProofsMarlin9.v
theories/ProofsMarlin10.v
theories/ProofsMarlin11.v
theories/ModelMle.v
theories/SpecMle.v
theories/ProofsMle.v
theories/ModelLibra.v
theories/SpecLibra.v
theories/ProofsLibra.v
theories/ProofsLibra2.v
theories/ProofsLibra3.v
theories/ProofsLibra4.v
theories/AttackLibra.v
theories/ProofsLibra5.v
theories/SpecMode.v
theories/ProofsMode.v
theories/ProofsMode2.v
theories/ProofsMode3.v
theories/ProofsMode4.v
theories/ModelSigma.v
theories/SpecSigma.v
theories/ProofsSigma.v
theories/ProofsSigma2.v
theories/ProofsSigma3.v
theories/ProofsSigma4.v
theories/ModelSpartan.v
theories/SpecSpartan.v
theories/ProofsSpartan.v
theories/ProofsSpartan2.v
theories/ProofsSpartan3.v
theories/AttackSpartan.v
theories/ProofsSpartan4.v
theories/ProofsSpartan5.v
theories/ProofsSpartan6.v
theories/ModelSpark.v
theories/SpecSpark.v
theories/ModelSnark.v
theories/ProofsSpark.v
theories/ProofsSpark2.v
theories/ProofsSnark.v
theories/ProofsSnark2.v
theories/ProofsSnark3.v
theories/ProofsAccept.v
theories/SpecSnark.v
theories/ProofsSnark4.v
theories/ProofsSnark5.v
theories/ProofsSnark6.v
theories/ProofsSnark7.v
theories/ProofsSnark8.v
theories/AttackSnark.v
theories/ModelHyrax.v
theories/AttackHyrax.v
theories/ProofsHyrax.v
theories/ProofsHyrax2.v
theories/ProofsHyrax3.v
theories/ProofsHyrax4.v
theories/ProofsHyrax5.v
theories/ProofsHyrax6.v
theories/ProofsHyrax7.v
theories/SpecHyrax.v
theories/ProofsHyrax8.v
theories/SpecHyrax2.v
theories/ProofsHyrax9.v
theories/ProofsHyrax10.v
theories/SpecHyrax3.v
theories/SpecSumcheck.v
theories/ProofsSumcheck.v
theories/ProofsHyrax11.v
theories/ProofsHyrax12.v
theories/ModelLibraZk.v
theories/SpecLibraZk.v
theories/ProofsLibraZk.v
theories/ProofsLibraZk2.v
theories/ProofsLibraZk3.v
theories/SpecSnark2.v
theories/ProofsSnark9.v
theories/SpecRewind.v
theories/ProofsRewind.v
theories/SpecLibraSound.v
theories/ProofsLibraSound.v
theories/ExRewind.v
theories/SpecBulletTree.v
theories/ProofsBulletTree.v
theories/ExBulletTree.v
theories/SpecLibraSound2.v
theories/ProofsLibraSound2.v
theories/ExLibraSound.v
theories/SpecGroth16Alg.v
theories/ProofsGroth16Alg.v
theories/SpecGroth16Zk.v
theories/ProofsGroth16Zk.v
theories/SpecSigmaZk.v
theories/ProofsSigmaZk.v
theories/ProofsSigmaZk2.v
theories/ProofsSigmaZk3.v
theories/SpecLibraCoins.v
theories/ProofsLibraCoins.v
theories/ProofsLibraCoins2.v
theories/ProofsLibraCoins3.v
theories/SpecSpartanZk.v
theories/ProofsSpartanZk.v
theories/ProofsSpartanZk2.v
theories/ProofsSpartanZk3.v
theories/ProofsSpartanZk4.v
theories/SpecHyraxZk.v
theories/ProofsHyraxZk.v
theories/ProofsHyraxZk2.v
theories/ProofsHyraxZk3.v
theories/ProofsHyraxZk4.v
theories/ProofsHyraxZk5.v
theories/ProofsHyraxZk6.v
theories/ProofsHyraxZk7.v
theories/ModelDigest.v
theories/SpecDigest.v
theories/ProofsDigest.v
theories/ProofsBulletproofsZk.v
theories/ModelTestCS.v
theories/SpecTestCS.v
theories/ProofsTestCS.v
theories/ProofsTestHash.v
theories/SpecMarlinZk.v
theories/ProofsMarlinZk.v
theories/ProofsMarlinZk2.v
theories/ProofsMarlinZk3.v
theories/ProofsMarlinZk4.v
theories/ModelFsRng.v
theories/SpecFsRng.v
theories/ProofsFsRng.v
theories/ModelCliMain.v
theories/SpecCliMain.v
theories/ModelCliInst.v
theories/AttackCli.v
theories/ProofsCliMain.v
theories/ProofsCliMain2.v
theories/ProofsCliMain3.v
theories/ProofsCliMain4.v
theories/ProofsCliMain5.v
theories/ExCli.v
theories/Lucas.v
theories/ModelCurve25519.v
theories/SpecCurve25519.v
theories/ProofsCurve25519.v
theories/Bls.v
theories/ModelDomain.v
theories/ProofsDomain.v
theories/ProofsBls.v
theories/ModelDemo.v
theories/ProofsDemo.v
theories/ProofsDemo2.v
theories/ModelMerkleDemo.v
theories/SpecMerkleDemo.v
theories/ProofsMerkleDemo.v
theories/ProofsMerkleDemo2.v
theories/ProofsShaKnown.v
theories/ProofsMerkleSha.v
theories/ProofsMerkleSha2.v
theories/ModelSerial.v
theories/SpecSerial.v
theories/ProofsSerial.v
theories/ProofsSerial2.v
theories/ModelMimcDemo.v
theories/ProofsMimcDemo.v
theories/SpecMarlinBls.v
theories/ProofsMarlinBls.v
theories/ProofsMarlinEmpty.v
theories/ModelOptRng.v
theories/ProofsOptRng.v
theories/ProofsMarlinIndex.v
theories/Properties1.v
theories/Properties2.v
theories/Properties3.v
theories/Properties4.v
theories/Properties5.v
theories/Properties6.v
theories/Properties7.v
theories/Properties8.v
theories/Properties9.v
theories/Properties10.v
theories/Properties11.v
theories/Properties12.v
theories/Properties13.v
theories/Properties14.v
theories/Properties15.v
theories/Properties16.v
theories/Properties17.v
theories/Properties18.v
theories/Properties19.v
theories/Properties20.v
theories/Properties21.v
theories/Properties22.v
theories/Properties23.v
theories/Properties24.v
theories/Properties25.v
theories/Properties26.v
theories/Properties27.v
theories/Properties28.v
theories/Properties29.v
theories/Properties30.v
theories/Properties31.v
theories/Properties32.v
theories/Properties33.v
theories/Properties34.v
theories/Properties35.v
theories/Properties36.v
theories/Properties37.v
theories/Properties38.v
theories/Properties39.v
theories/Properties40.v
theories/Properties41.v
theories/Properties42.v
theories/Properties43.v
theories/Properties44.v
theories/Properties45.v
theories/Properties46.v
theories/Properties47.v
theories/Properties48.v
theories/Properties49.v
theories/Properties50.v
theories/Properties51.v
theories/Properties52.v
theories/Properties53.v
