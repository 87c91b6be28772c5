-Q theories Verif
theories/Base.v
theories/Crypto.v
theories/MathUtils.v
theories/Matrix.v
theories/GramSchmidt.v
theories/IpaNoZK.v
theories/IpaAlmZK.v
theories/QesaInner.v
theories/Mapping.v
theories/Copy.v
theories/LmpaNoZK.v
theories/LmpaSimpleZK.v
theories/Spec.v
theories/Algebra.v
theories/ListFacts.v
theories/Vec.v
theories/Fermat.v
theories/Primes.v
theories/Fp.v
theories/MatrixFacts.v
theories/Ex.v
theories/PropMath.v
theories/GramFacts.v
theories/PropGram.v
theories/PropIpa.v
theories/IpaSpec.v
theories/IpaFacts.v
theories/IpaSound.v
theories/Basis.v
theories/PropAlm.v
theories/Poly.v
theories/QesaSpec.v
theories/QesaFacts.v
theories/PropQesa.v
theories/ExSmall.v
theories/PropQesaSound.v
theories/PropQesaAttack.v
theories/LmpaSpec.v
theories/LmpaFacts.v
theories/PropLmpa.v
theories/PropSimpleZK.v
theories/KarySpec.v
theories/KaryFacts.v
theories/PropKary.v
theories/CopySpec.v
theories/MappingFacts.v
theories/PropMapping.v
theories/CopyFacts.v
theories/PropCopy.v
theories/PropCopyCases.v
theories/TransSpec.v
theories/PropTranscript.v
theories/Challenge.v
theories/PropChallenge.v
theories/PropTotal.v
theories/PropPanic.v
theories/PropAlmFail.v
theories/PropMalleable.v
theories/LmpaBatch.v
theories/PropBatch.v
theories/PropCopySound.v
theories/UnitTests.v
theories/PropMapTest.v
theories/PropEqTest.v
theories/PropCopyTest.v
theories/PropProver.v
theories/FloatTests.v
theories/FloatFacts.v
theories/PropFloat.v
theories/UnitTests2.v
theories/PropTests.v
theories/Count.v
theories/PropCount.v
theories/PropWide.v
theories/MappingRelease.v
theories/PropRelease.v
theories/PropQesaCount.v
theories/Forking.v
theories/PropForking.v
theories/PropZkCount.v
theories/ZkView.v
theories/ZkMask.v
theories/PropZk.v
theories/ZkPoly.v
theories/PropZkHide.v
theories/ZkFamily.v
theories/ZkGen.v
theories/PropZkQesa.v
theories/PropZkCopy.v
theories/FiatShamir.v
theories/PropFiatShamir.v
theories/PropShort.v
theories/Release.v
theories/PropOverflow.v
theories/Nizk.v
theories/PropNizk.v
theories/PropNizkMany.v
theories/PropNizkLmpa.v
theories/PropZkGen.v
theories/Rewind.v
theories/PropExtract.v
theories/PropDlog.v
theories/Merlin.v
theories/MerlinSpec.v
theories/PropMerlin.v
theories/NizkHit.v
theories/PropNizkAlm.v
theories/FsRewind.v
theories/FsExtract.v
theories/PropFsExtract.v
theories/PropFsDlog.v
theories/PropBytes.v
theories/PropFsAny.v
theories/PropShape.v
theories/PropInputs.v
theories/PropRagged.v
theories/SepSpec.v
theories/PropSeparate.v
theories/SessionSpec.v
theories/PropSession.v
theories/PropBytesAll.v
theories/PropGenHidden.v
theories/PropNozkBind.v
theories/PropAdaptive.v
theories/PropAdaptiveAny.v
theories/PropBytesAdaptive.v
theories/PropAdaptiveExtract.v
theories/PropBytesExtract.v
theories/PropBytesDlog.v
theories/Assumptions.v
