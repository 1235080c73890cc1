-Q theories Verif
theories/Model/AddCode.v
theories/Model/Additive.v
theories/Model/Alloc.v
theories/Model/Arith.v
theories/Model/Bench.v
theories/Model/BenchMain.v
theories/Model/BenchThreads.v
theories/Model/BigInt.v
theories/Model/Blocks.v
theories/Model/BufOps.v
theories/Model/Buffers.v
theories/Model/Bytes.v
theories/Model/CApi.v
theories/Model/Cached.v
theories/Model/Common.v
theories/Model/Counters.v
theories/Model/CrtMachine.v
theories/Model/Driver.v
theories/Model/DriverMain.v
theories/Model/Dump.v
theories/Model/Fft2n.v
theories/Model/FftCodes.v
theories/Model/FftIndex.v
theories/Model/Fnt.v
theories/Model/Gf2n.v
theories/Model/HCodes.v
theories/Model/Header.v
theories/Model/Horizontal.v
theories/Model/Large.v
theories/Model/Matrix.v
theories/Model/Misc.v
theories/Model/MixedFft.v
theories/Model/Nf4.v
theories/Model/Owner.v
theories/Model/Packets.v
theories/Model/Poly.v
theories/Model/Prng.v
theories/Model/Props.v
theories/Model/Radix2.v
theories/Model/Rand.v
theories/Model/Ring.v
theories/Model/Simd.v
theories/Model/Streams.v
theories/Model/VCodes.v
theories/Model/VecOps.v
theories/Model/Views.v
theories/Proof/AddB.v
theories/Proof/AddC.v
theories/Proof/AddF.v
theories/Proof/AddG.v
theories/Proof/AddI.v
theories/Proof/AddL.v
theories/Proof/AddT.v
theories/Proof/AddX.v
theories/Proof/AddY.v
theories/Proof/Agree.v
theories/Proof/AgreeN.v
theories/Proof/ArithP.v
theories/Proof/BenchMainP.v
theories/Proof/BenchP.v
theories/Proof/BenchThreadsP.v
theories/Proof/BigIntP.v
theories/Proof/BigPrime.v
theories/Proof/BitRev.v
theories/Proof/BitsP.v
theories/Proof/BlocksF.v
theories/Proof/BlocksP.v
theories/Proof/BufOpsP.v
theories/Proof/Build.v
theories/Proof/BytesP.v
theories/Proof/CApiF.v
theories/Proof/CApiH.v
theories/Proof/CApiP.v
theories/Proof/Ceil2P.v
theories/Proof/CodeLenP.v
theories/Proof/ConvP.v
theories/Proof/CountersB.v
theories/Proof/CountersP.v
theories/Proof/CrtMachineP.v
theories/Proof/DftAlg.v
theories/Proof/DftInv.v
theories/Proof/DriverH.v
theories/Proof/DriverMainP.v
theories/Proof/DriverP.v
theories/Proof/DriverR.v
theories/Proof/DumpP.v
theories/Proof/EgcdP.v
theories/Proof/FactorU.v
theories/Proof/FermatDiv.v
theories/Proof/Fft2nL.v
theories/Proof/Fft2nP.v
theories/Proof/FftB.v
theories/Proof/FftC.v
theories/Proof/FftFinal.v
theories/Proof/FftRange.v
theories/Proof/FftRangeA.v
theories/Proof/FieldP.v
theories/Proof/FinF.v
theories/Proof/FntAll.v
theories/Proof/FntInst.v
theories/Proof/FntNew.v
theories/Proof/FntP.v
theories/Proof/FntV.v
theories/Proof/FntW.v
theories/Proof/Gf2nA.v
theories/Proof/Gf2nC.v
theories/Proof/Gf2nF.v
theories/Proof/Gf2nI.v
theories/Proof/Gf2nL.v
theories/Proof/Gf2nP.v
theories/Proof/Gf2nQ.v
theories/Proof/Gf2nR.v
theories/Proof/Gf2nT.v
theories/Proof/GfpB.v
theories/Proof/HCodesP.v
theories/Proof/HCodesR.v
theories/Proof/HCodesW.v
theories/Proof/HSysP.v
theories/Proof/HeaderP.v
theories/Proof/HorizontalF.v
theories/Proof/HorizontalP.v
theories/Proof/Interp.v
theories/Proof/InterpZ.v
theories/Proof/JacP.v
theories/Proof/Kern.v
theories/Proof/Lanes.v
theories/Proof/LargeB.v
theories/Proof/LargeF.v
theories/Proof/LargeP.v
theories/Proof/LargeR.v
theories/Proof/LegP.v
theories/Proof/ListP.v
theories/Proof/Local.v
theories/Proof/MatrixB.v
theories/Proof/MatrixC.v
theories/Proof/MatrixE.v
theories/Proof/MatrixI.v
theories/Proof/MatrixK.v
theories/Proof/MatrixL.v
theories/Proof/MixedB.v
theories/Proof/MixedC.v
theories/Proof/MixedF.v
theories/Proof/MixedG.v
theories/Proof/MixedL.v
theories/Proof/MixedT.v
theories/Proof/Nf4Buf.v
theories/Proof/Nf4Code.v
theories/Proof/Nf4Inst.v
theories/Proof/Nf4L.v
theories/Proof/Nf4Log.v
theories/Proof/Nf4New.v
theories/Proof/Nf4Sim.v
theories/Proof/Nf4Vert.v
theories/Proof/PacketsP.v
theories/Proof/Param.v
theories/Proof/ParamO.v
theories/Proof/PolyL.v
theories/Proof/PolyP.v
theories/Proof/Pres.v
theories/Proof/PrimeP.v
theories/Proof/PrimeR2.v
theories/Proof/PrngP.v
theories/Proof/PropsP.v
theories/Proof/QuotF.v
theories/Proof/Rabin.v
theories/Proof/Radix2P.v
theories/Proof/Recip.v
theories/Proof/RootP.v
theories/Proof/SimdK.v
theories/Proof/SimdL.v
theories/Proof/SimdP.v
theories/Proof/SimdPost.v
theories/Proof/SimdR.v
theories/Proof/Smooth.v
theories/Proof/SolovayP.v
theories/Proof/StreamsF.v
theories/Proof/StreamsL.v
theories/Proof/Tac.v
theories/Proof/TextP.v
theories/Proof/VLoops.v
theories/Proof/VecOpsP.v
theories/Proof/ViewsP.v
theories/Proof/WidePrime.v
theories/Spec/Additive.v
theories/Spec/Alloc.v
theories/Spec/Bench.v
theories/Spec/BenchMain.v
theories/Spec/BenchThreads.v
theories/Spec/Blocks.v
theories/Spec/CApi.v
theories/Spec/Code.v
theories/Spec/Conv.v
theories/Spec/Counters.v
theories/Spec/Dft.v
theories/Spec/DriverMain.v
theories/Spec/Dump.v
theories/Spec/Gf2n.v
theories/Spec/HStreams.v
theories/Spec/Header.v
theories/Spec/Inter.v
theories/Spec/Ints.v
theories/Spec/Legendre.v
theories/Spec/Matrix.v
theories/Spec/Misc.v
theories/Spec/Mixed.v
theories/Spec/Modular.v
theories/Spec/Nf4.v
theories/Spec/Owner.v
theories/Spec/Packets.v
theories/Spec/Primes.v
theories/Spec/Session.v
theories/Spec/Simd.v
theories/Spec/VCodes.v
theories/Spec/VecOps.v
theories/Spec/Widths.v
theories/Thm/AddCodeThm.v
theories/Thm/AdditiveThm.v
theories/Thm/AllocThm.v
theories/Thm/ArithThm.v
theories/Thm/BenchCodesThm.v
theories/Thm/BenchMainThm.v
theories/Thm/BenchParamsThm.v
theories/Thm/BenchRunCodesThm.v
theories/Thm/BenchRunThm.v
theories/Thm/BenchThm.v
theories/Thm/BenchThreadsThm.v
theories/Thm/BlocksThm.v
theories/Thm/BufOpsThm.v
theories/Thm/BuffersThm.v
theories/Thm/CApiThm.v
theories/Thm/CachedThm.v
theories/Thm/CountersThm.v
theories/Thm/CrtMachineThm.v
theories/Thm/DriverCodesThm.v
theories/Thm/DriverGfpThm.v
theories/Thm/DriverHThm.v
theories/Thm/DriverMainThm.v
theories/Thm/DriverNf4Thm.v
theories/Thm/DriverRunThm.v
theories/Thm/DriverThm.v
theories/Thm/DumpThm.v
theories/Thm/FftCodesThm.v
theories/Thm/FftRangeThm.v
theories/Thm/FftThm.v
theories/Thm/FieldThm.v
theories/Thm/Gf2nThm.v
theories/Thm/Gf2nWideThm.v
theories/Thm/GfpThm.v
theories/Thm/HCodesGfpThm.v
theories/Thm/HCodesNf4Thm.v
theories/Thm/HCodesThm.v
theories/Thm/HSysThm.v
theories/Thm/HeaderThm.v
theories/Thm/HorizontalThm.v
theories/Thm/InterCasesThm.v
theories/Thm/InterCodesThm.v
theories/Thm/InterFntThm.v
theories/Thm/InterGfpThm.v
theories/Thm/InterNf4Thm.v
theories/Thm/InterThm.v
theories/Thm/JacobiThm.v
theories/Thm/LargeThm.v
theories/Thm/MatrixThm.v
theories/Thm/MiscThm.v
theories/Thm/MixedThm.v
theories/Thm/Nf4CodeThm.v
theories/Thm/Nf4Thm.v
theories/Thm/OwnerThm.v
theories/Thm/PacketsThm.v
theories/Thm/PolyThm.v
theories/Thm/PrngThm.v
theories/Thm/RandThm.v
theories/Thm/SimdThm.v
theories/Thm/StreamsThm.v
theories/Thm/U128Thm.v
theories/Thm/VCodesThm.v
theories/Thm/VecOpsThm.v
theories/Thm/ViewsThm.v
