-Q theories Verif

theories/Base.v
theories/Image.v
theories/Spec.v
theories/BaseProofs.v
theories/ImgFun.v
theories/ImgLemmas.v
theories/ImgProofs.v
theories/ConvProofs.v
theories/ReduceProofs.v
theories/SafeProofs.v
theories/PropsA.v
theories/PropsB.v
theories/Container.v
theories/ContainerProofs.v
theories/PropsC.v
theories/Alloc.v
theories/AllocProofs.v
theories/PropsD.v
theories/Pool.v
theories/PoolProofs.v
theories/PoolLive.v
theories/PoolHang.v
theories/PropsE.v
theories/Simd.v
theories/StepProofs.v
theories/SimdProofs.v
theories/SimdProofs1.v
theories/SimdProofs2.v
theories/SimdProofs3.v
theories/SimdProofs4.v
theories/SimdProofs5.v
theories/PropsF.v
theories/FuncPool.v
theories/FuncPoolProofs.v
theories/StripProofs.v
theories/TileProofs.v
theories/PoolReduce.v
theories/PropsG.v
theories/Morph.v
theories/MorphProofs.v
theories/Double.v
theories/DoubleProofs.v
theories/Tone.v
theories/ToneProofs.v
theories/OtsuProofs.v
theories/PropsH.v
theories/Blob.v
theories/BlobProofs.v
theories/BlobFilter.v
theories/PropsI.v
theories/File.v
theories/FileProofs.v
theories/FileSave.v
theories/RawProofs.v
theories/PropsJ.v
theories/Edge.v
theories/NumProofs.v
theories/EdgeProofs.v
theories/EdgeScan.v
theories/PropsK.v
theories/Filter.v
theories/FilterProofs.v
theories/MagProofs.v
theories/PropsL.v
theories/Arith.v
theories/Math.v
theories/HaarProofs.v
theories/HaarExact.v
theories/PropsM.v
theories/GaussProofs.v
theories/GaussExact.v
theories/PropsN.v
theories/HoughProofs.v
theories/HoughExact.v
theories/HoughFloat.v
theories/PropsO.v
theories/Fft.v
theories/FftSpec.v
theories/FftSum.v
theories/FftProofs.v
theories/Kiss.v
theories/KissProofs.v
theories/FftPipe.v
theories/Light.v
theories/LightProofs.v
theories/PropsP.v
theories/PropsQ.v
theories/Table.v
theories/PropsR.v
theories/Warp.v
theories/WarpSpec.v
theories/WarpProofs.v
theories/RotateProofs.v
theories/PropsS.v
theories/Geom.v
theories/GeomSpec.v
theories/GeomProofs.v
theories/PropsT.v
theories/Cuda.v
theories/CudaProofs.v
theories/CudaRuns.v
theories/CudaSums.v
theories/PropsU.v
theories/OpenCL.v
theories/OpenCLProofs.v
theories/OpenCLRuns.v
theories/OpenCLSums.v
theories/PropsV.v
theories/Device.v
theories/PropsW.v
theories/DevMem.v
theories/DevMemProofs.v
theories/PropsX.v
theories/Codec.v
theories/CodecProofs.v
theories/PropsY.v
theories/PropsZ.v
theories/ToneMore.v
theories/PropsAA.v
theories/Kernel.v
theories/PropsAB.v
theories/Cplx.v
theories/PropsAC.v
theories/Chart.v
theories/PropsAD.v
theories/CudaFft.v
theories/PropsAE.v
theories/CudaRotate.v
theories/PropsAF.v
theories/Measure.v
theories/Outline.v
theories/PropsAG.v
theories/Window.v
theories/PropsAH.v
theories/PropsAI.v
