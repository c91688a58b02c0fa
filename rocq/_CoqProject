-Q theories Verif
theories/M_Base.v
theories/M_Worker.v
theories/M_Field.v
theories/M_Domain.v
theories/M_Fft.v
theories/M_Words.v
theories/M_Poly.v
theories/M_PolyUtils.v
theories/M_Bytes.v
theories/M_Transcript.v
theories/M_Merkle.v
theories/M_Fri.v
theories/M_Challenge.v
theories/M_Air.v
theories/M_Arp.v
theories/M_Vdf.v
theories/M_Tensor.v
theories/M_Fp2.v
theories/P_Fp2.v
theories/M_TraceSys.v
theories/M_Ali.v
theories/M_Verifier.v
theories/M_Prover.v
theories/M_ProverLog.v
theories/Spec.v
theories/SpecPoly.v
theories/SpecHash.v
theories/SpecFri.v
theories/SpecAir.v
theories/P_Base.v
theories/M_Sched.v
theories/M_SchedLoops.v
theories/P_Sched.v
theories/P_Fft.v
theories/P_Domain.v
theories/M_FftAlt.v
theories/M_Prefetch.v
theories/P_FftAlt.v
theories/P_Prefetch.v
theories/P_Poly.v
theories/P_Lde.v
theories/P_PolyOps.v
theories/P_PolyUtils.v
theories/P_Wf.v
theories/P_Bytes.v
theories/P_Merkle.v
theories/P_Fri.v
theories/P_Air.v
theories/P_Arp.v
theories/P_Lucas.v
theories/P_Lehmer.v
theories/SpecField.v
theories/P_Declared.v
theories/Fr255.v
theories/Prop_Fields.v
theories/SpecStark.v
theories/SpecMany.v
theories/P_Vals.v
theories/P_Maps.v
theories/P_Ali.v
theories/P_AliG.v
theories/P_Comp.v
theories/P_Honest.v
theories/P_Gz.v
theories/P_Deep.v
theories/P_Stark.v
theories/Instances.v
theories/Fr251.v
theories/Prop_Domain.v
theories/Prop_Fft.v
theories/Prop_PolyOps.v
theories/Prop_Hash.v
theories/Prop_Fri.v
theories/Prop_Air.v
theories/Prop_Trace.v
theories/Prop_Arp.v
theories/Prop_Ali.v
theories/Prop_Stark.v
theories/Prop_Verify.v
theories/Prop_Malformed.v
theories/Prop_Challenges.v
theories/Prop_FftAlt.v
theories/Prop_Prefetch.v
theories/Prop_Vdf.v
theories/Prop_Fp2.v
theories/Prop_Sched.v
theories/Prop_Tensor.v
theories/SpecSound.v
theories/P_Sound.v
theories/P_SoundDeep.v
theories/P_SoundFri.v
theories/P_Prox.v
theories/P_Few.v
theories/Prop_Sound.v
theories/Prop_SoundDeep.v
theories/Prop_SoundFri.v
theories/Prop_FriProx.v
theories/Prop_SoundGame.v
theories/P_AliMany.v
theories/P_Run.v
theories/Prop_Claims.v
theories/Prop_AnyWitness.v
theories/Prop_SoundIop.v
theories/M_WordsFri.v
theories/P_Words.v
theories/P_WordsFri.v
theories/Prop_Words.v
theories/Prop_Panic.v
theories/M_FftRec.v
theories/M_Compare.v
theories/P_FftRec.v
theories/Prop_FftRec.v
theories/Prop_Compare.v
theories/Prop_Densities.v
theories/Prop_Cpus.v
theories/Prop_Shape.v
theories/Prop_LdeExact.v
theories/P_Count.v
theories/Prop_Uniform.v
theories/Prop_Builder.v
theories/P_GzAny.v
theories/SpecVerify.v
theories/Prop_Accept.v
theories/M_WordsNew.v
theories/Prop_WordsNew.v
theories/M_WordsRange.v
theories/Prop_WordsRange.v
theories/M_WordsProver.v
theories/Prop_WordsProver.v
theories/M_WordsEval.v
theories/Prop_Builds.v
theories/Prop_Unread.v
theories/Prop_FriExact.v
