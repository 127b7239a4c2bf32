-Q theories Verif
theories/Base.v
theories/Ring.v
theories/RingProofs.v
theories/Prog.v
theories/Sched.v
theories/Iris.v
theories/IrisSpec.v
theories/IrisProofs.v
theories/Rng.v
theories/Rel.v
theories/BinTrait.v
theories/BitArith.v
theories/BinProofs.v
theories/AddProofs.v
theories/Net.v
theories/Protocol.v
theories/Plain.v
theories/Aby3.v
theories/MpcSpec.v
theories/ShareSpec.v
theories/Aby3Proofs.v
theories/Aby3Proofs2.v
theories/SlicedProofs.v
theories/OrProofs.v
theories/ProtocolProofs.v
theories/EngineProofs.v
theories/PlainProofs.v
theories/SpecProofs.v
theories/Client.v
theories/ClientProofs.v
theories/Apis.v
theories/ApiProofs.v
theories/PropLemmas.v
theories/PropLemmas2.v
theories/PropLemmas3.v
theories/Swift3Verify.v
theories/Swift3VerifyProofs.v
theories/Properties1.v
theories/Properties2.v
theories/Properties3.v
theories/Conc.v
theories/Jmp.v
theories/JmpProofs.v
theories/Aby3Mal.v
theories/Aby3MalProofs.v
theories/Aby3MalProofs2.v
theories/Session.v
theories/SessionProofs.v
theories/SacrificeProofs.v
theories/PropLemmas4.v
theories/Duo.v
theories/DuoProofs.v
theories/PropLemmas5.v
theories/Properties4.v
theories/Channel.v
theories/ChannelProofs.v
theories/Properties5.v
theories/Spdz.v
theories/TripleSpec.v
theories/TripleProofs.v
theories/TripleProofs2.v
theories/SpdzProofs.v
theories/SpdzProofs2.v
theories/SpdzProofs3.v
theories/SpdzProofs4.v
theories/FailProofs.v
theories/SpdzProofs5.v
theories/BudgetProofs.v
theories/PropLemmas6.v
theories/Properties6.v
theories/MacSpec.v
theories/MacProofs.v
theories/MacCount.v
theories/Properties7.v
theories/Swift3.v
theories/Swift3Spec.v
theories/Swift3Proofs.v
theories/Swift3Gates.v
theories/Swift3Circ.v
theories/Swift3Open.v
theories/Swift3Api.v
theories/Swift3ApiProofs.v
theories/Swift3Setup.v
theories/Swift3SetupProofs.v
theories/InputProofs.v
theories/Properties8.v
theories/Properties9.v
theories/Gf2.v
theories/Gf2Proofs.v
theories/Gf2Field.v
theories/Gf2Certs.v
theories/Poly.v
theories/PolyProofs.v
theories/GfRing.v
theories/Dzkp.v
theories/DzkpProofs.v
theories/DzkpCircuits.v
theories/DzkpSound.v
theories/DzkpPrivate.v
theories/DzkpSpec.v
theories/DzkpAnd.v
theories/DzkpInterp.v
theories/DzkpAttack.v
theories/Properties10.v
theories/PolyRing.v
theories/PolyDiv.v
theories/PolyRem.v
theories/Gf2Inv.v
theories/PolyPar.v
theories/Galois.v
theories/GaloisSpec.v
theories/GaloisPoints.v
theories/GaloisDzkp.v
theories/GaloisSound.v
theories/GaloisGates.v
theories/GaloisMul.v
theories/GaloisInterp.v
theories/PolyOps.v
theories/FieldProofs.v
theories/Properties11.v
theories/Properties12.v
theories/OutcomeSpec.v
theories/OutcomeProofs.v
theories/Swift3VerifyKinds.v
theories/Swift3VerifyRun.v
theories/Swift3VerifyGr.v
theories/Swift3VerifyMain.v
theories/Swift3VerifyLax.v
theories/Swift3VerifySpec.v
theories/Properties13.v
theories/Session3.v
theories/Session3Proofs.v
theories/Session3Honest.v
theories/CheatSpec.v
theories/Swift3VerifyDuo.v
theories/Swift3VerifyMal.v
theories/Swift3VerifyAll.v
theories/Emits.v
theories/Properties14.v
theories/PrivacySpec.v
theories/PrivateGates.v
theories/StreamProofs.v
theories/Properties15.v
theories/ViewSpec.v
theories/Private.v
theories/PrivateOps.v
theories/PrivateAby3.v
theories/PrivateCirc.v
theories/PrivateSliced.v
theories/PrivateClient.v
theories/PrivateFinal.v
theories/PrivateIris.v
theories/Properties16.v
theories/Properties17.v
theories/Examples.v
theories/ExamplesProofs.v
theories/ExamplesRun.v
theories/Properties18.v
theories/PrivateInput.v
theories/Properties19.v
theories/Establish.v
theories/EstablishSpec.v
theories/EstablishProofs.v
theories/EstablishLive.v
theories/Properties20.v
theories/Shutdown.v
theories/ShutdownSpec.v
theories/ShutdownProofs.v
theories/ShutdownRace.v
theories/ShutdownEngines.v
theories/Properties21.v
theories/TripleMalSpec.v
theories/FyCount.v
theories/TripleMal.v
theories/TripleMalDuo.v
theories/TripleMalMain.v
theories/TripleMalGen.v
theories/TripleMalMet.v
theories/Properties22.v
theories/ProgMalSpec.v
theories/ProgMalDuo.v
theories/ProgMalOps.v
theories/ProgMalOps2.v
theories/ProgMalOps3.v
theories/ProgMalOps4.v
theories/ProgMalExec.v
theories/ProgMalMet.v
theories/Properties23.v
theories/ProgMalSpec2.v
theories/ProgMalInput.v
theories/ProgMalExec2.v
theories/Properties24.v
theories/ProgMalBinSpec.v
theories/ProgMalBin.v
theories/ProgMalBin2.v
theories/ProgMalBin3.v
theories/ProgMalBin4.v
theories/ProgMalBin5.v
theories/ProgMalBin6.v
theories/ProgMalExec3.v
theories/Properties25.v
theories/IrisMalSpec.v
theories/IrisMal.v
theories/IrisMal2.v
theories/IrisMal3.v
theories/Properties26.v
theories/InputAll.v
theories/Properties27.v
theories/OpenMal.v
theories/Properties28.v
theories/SpdzMalSpec.v
theories/SpdzMal.v
theories/SpdzMal2.v
theories/SpdzMalCount.v
theories/Properties29.v
theories/Properties30.v
