# Formal model of penguinV in Rocq/Coq 8.16.1

Source under study: `/repo` (ihhub/penguinV, pinned commit), read as text, never built or run.
Everything below `rocq/theories` is built with `coq_makefile -f _CoqProject -o Makefile && make -j4`.

## 1. Shape of the model

* `Base.v`: outcomes `Ok v | Throw | UB | Timeout`.  A C++ exception is `Throw`, an out-of-bounds or otherwise
  undefined operation is `UB` (never assumed away), running out of loop fuel is `Timeout`; each theorem excludes the
  outcomes it does not mention.  32-bit arithmetic is written as `mod 2^32` wherever the code computes in `uint32_t`.
* Memory is a set of blocks; a pointer is (block, element offset).  A load or store outside a block is `UB`.
  Images are records with the C++ fields (width, height, colour count, alignment, row size, data pointer, type);
  several images may point to the same block, so in-place calls and overlapping ROIs are expressible.
* Loops are the C++ pointer loops `for (; p != end; p += step)`, run by a fuelled `loop` combinator on the loop
  variables; proofs go through `loop_iter` (closed form of the loop variables) and a general theorem about sequences of
  gather/compute/scatter steps.
* State machines (`thread pool`, `allocator`) are `init`/`step` with a nondeterministic scheduler as a relation.
* Floating point: IEEE doubles through Flocq / Coq `Floats` where the result is discrete (Normalize, light correction,
  table computation); exact field arithmetic (`Q`/`R`) where the property is algebraic (Haar, Gauss, Hough).

Model files contain definitions only; `*Proofs.v` hold lemmas; `Properties*.v` hold the property theorems, each
`exact lemma` with `Print Assumptions`.

## 2. Plan per property

| Property | Model | How |
|---|---|---|
| C01, C03, C06 | `Image_Function` pixelwise functions as pointer loops | gather/scatter theorem, in-place allowed |
| C02 | same; `OptimiseRoi(width,height,in1,in1,out)` as written | refutation witness + proof under equal layout |
| C04, C05 | validation functions with wrapping sums; UB outcome | case analysis + the theorems above |
| C07-C12, C14, C21, C30 | geometric/colour functions | gather/scatter theorem, composition |
| C13, C15, C17, C22, C27, C31 | same models | refutation by computed witness (findings) + guarded theorem |
| C16, C18-C20, C24-C26 | reductions and pixel access | loop invariants over folds |
| C23, C29 | doubles | error bounds over the reals (Flocq); argmax induction |
| C28 | in-place two-pass dilation | run invariant per line, separable box spec |
| C32-C42 | vector kernels over lane lists for AVX512/AVX/SSE/NEON, ISA as parameter | equality with scalar model; refutations for lane-permuting kernels |
| C43-C46 | container as state machine over a heap | invariant by induction over operations |
| C47-C51 | AreaInfo and task dispatch | tiling by arithmetic; commuting disjoint strips |
| C52-C55 | thread pool transition system | inductive invariant, progress measure; refutation traces |
| C56-C59 | memory manager | inductive invariant over histories; refutation traces |
| C60, C61 | blob detection | flood-fill invariant; filter lists |
| C62-C67 | BMP and RAW as byte-list codecs + memory for flip/palette | round trip; refutations |
| C68-C69, C90-C91 | edge detection | lines as lists of integers, positions as Flocq numbers of either type; refutation |
| C70, C71, C92 | median, gradient filters | window specs, index bounds, error bound of the float table; refutation |
| C72-C74, C93-C98 | Hough, Haar, Gauss in exact arithmetic | list partition; algebra; elimination invariant |
| C75, C76, C102-C106 | complex data, kissfft in exact arithmetic | index maps; sums over finite lists, roots of unity; induction over the factors of the length; refutations |
| C77, C78, C99-C101 | light correction | raster invariants; the factor through Flocq, its effect by integer inequalities; refutations |
| C79-C81, C107-C111 | function tables, facade | induction over registration histories; the image manager as a state machine with reallocation; refutations |
| C112-C116 | Shift, Rotate | row invariants; positions and weights through Flocq; refutations |
| C117-C123 | points, lines, angles | exact arithmetic with a tolerance; error analysis of the conversions; refutations |
| C124-C131 | CUDA back end | grids of device threads as interleaved programs; any interleaving equals an application of all writes (linearisation); refutations |
| C132-C141 | OpenCL back end | work-items as the device threads of CUDA; what a wrong function does is proved as well as that it is wrong; `never_returns` for runs that leave the memory |
| C142-C149 | device images, arrays, streams, queues, managers | histories as lists of operations, each against a specification that folds over the history; refutations |
| C150-C154 | memory allocators of the devices, alignment | invariant over histories with several devices: the bytes of free, allocated and lost chunks partition the reserved memory, chunks of 2^m bytes are at multiples of 2^m; refutations |
| C155-C163 | PNG, JPEG and bitmap files by name | state of files, open files, quality and images; the libraries as functions; loops over rows and columns by invariants, refutations with small libraries |
| C164-C165 | argument checks of the CUDA and OpenCL functions | the guards of `Cuda.v` and `OpenCL.v` against the validity of Spec.v; a released array leaves the memory as it was |
| C166-C168 | Normalize and GammaCorrection of the function pool, GammaCorrection on the devices | `ToneMore.v` against the functions of one thread in `Tone.v`; the range found in the histogram is the range of the pixels |
| C169 | GetGaussianKernel | `Kernel.v` for any number type against a closed formula; corollaries for exact and IEEE arithmetic |
| C170 | copies and moves of ComplexData | `Cplx.v`: worlds of objects and blocks; ownership as invariant of all histories |
| C171 | DisplayHistogram | `Chart.v`; the picture against the height of each column |
| C172–C174 | ComplexData and complexMultiplication on a CUDA device | `CudaFft.v`; elements of the arrays after every interleaving of the threads, whatever the float arithmetic |
| C175–C176 | Rotate on a CUDA device | `CudaRotate.v`; safety and independence of the schedule for any float arithmetic, values in exact arithmetic |
| C177 | kiss_fft_next_fast_size | `Measure.v`; the least product of powers of 2, 3 and 5, in exact arithmetic with overflow of int as an outcome |
| C178–C181 | limits, cached measurements, rectangle and isSolid of blobs | `Measure.v`; sequences of calls against the last call that counts; rectangle and holes against the points (`Outline.v`: the outer edge of a blob is connected) |
| C182–C184 | pictures of windows on X11 and Windows | `Window.v`; every byte of the picture, and that nothing else changes |
| C185 | length of a blob | the largest distance of two points of the blob, found from the contour (`Outline.v`) |
| C186 | contour of a blob | against paths of dark pixels out of the region (`Outline.v`) |

Not modelled: cuFFT and the filters of CUDA, JPEG/PNG (external libraries), the UI code but for the pictures of windows, `std::` internals (containers,
streams, `nth_element`, mutexes are taken at their documented contracts), real time, hardware memory reordering
(all shared thread-pool state is mutex- or atomic-protected; interleaving semantics is assumed).

## 3. Trusted base

* Coq's kernel (8.16.1) and `coqchk`.
* `Print Assumptions` follows every property theorem in the `Props*.v` files.  Each prints
  "Closed under the global context" except the ones about double arithmetic that go through real
  numbers (Flocq): `C23_standard_undefined`, `C23_claim_refuted`, `C23_normalize_partial`, `C29_threshold`, `C29_threshold_near_optimal`, `C29_gamma_table`,
  `C29_gamma_correction`, `C68_find`, `C68_local`, `C90_points`, `C91_step`,
  `C71_gradient_filters`, `C71_whole_image`, `C92_claim_refuted`, `C73_round_trip`, `C73_ieee`,
  `C74_solves`, `C74_throws`, `C74_singular`, `C96_claim_refuted`, `C72_exact`,
  `C97_returns_partial`, `C77_analysis`, `C77_roi`, `C77_flattens`, `C78_safe_partial`, `C100_finds`,
  `C76_real_partial`, `C102_convolution`, `C103_identity`, `C104_convolution_partial`, `C104_refuted`, `C106_transform`
  and those of `PropsS.v` except `C112_shift_safe_refuted`, and those of `PropsT.v` except `C121_transitive_refuted`, `C121_different_refuted` and `C121_symmetric`,
  `C166_normalize_partial`, `C167_gamma`, `C168_colour_refuted`, `C168_cuda_partial`, `C168_opencl_partial`, `C169_sum_exact`, `C176_rotate_partial` and `C176_left_border_refuted`.  These list axioms of Coq's standard library only:
  `ClassicalDedekindReals.sig_forall_dec`, `ClassicalDedekindReals.sig_not_dec`,
  `FunctionalExtensionality.functional_extensionality_dep`, `Classical_Prop.classic`.
  There are no axioms of ours.
* The reading of the C++ source, cited file and line in the comment of each definition.
* The contracts and simplifications listed below.

### Modelled code

| File of /repo | Model | Not modelled there |
|---|---|---|
| `src/image_function.cpp`, `src/parameter_validation.h` | `Image.v`, `ImgFun.v`, `Warp.v` | the forms of Shift and Rotate that call the form with all parameters |
| `Normalize`, `GammaCorrection`, `GetThreshold`, `Dilate`/`Erode` of `src/image_function.cpp`, `image_function_helper.cpp` | `Tone.v`, `Morph.v`, `Double.v` | the whole-image forms of Normalize and GammaCorrection |
| `src/image_buffer.h` | `Image.v`, `Container.v` | `_type` strings of other back ends |
| `src/memory/memory_allocator.h` | `Alloc.v` | |
| `src/thread_pool.h/.cpp` | `Pool.v` | |
| `src/image_function_simd.cpp`, dispatch part of `image_function_helper.cpp`, `penguinv/cpu_identification.h` | `Simd.v` | the value-returning and whole-image wrappers (they forward to the region form as the scalar ones do) |
| `src/blob_detection.h/.cpp` | `Blob.v`, `Measure.v` (Parameter, the caches and getters of BlobInfo) | copies of a BlobInfo |
| `src/edge_detection.cpp`, `src/edge_detection.h` | `Edge.v` | none; `float` and `double` are IEEE binary32 and binary64, rounded to nearest, no excess precision |
| `src/filtering.cpp` | `Filter.v`, `Kernel.v` (GetGaussianKernel) | the forms that return a new image; the table of Prewitt and Sobel is a static object, here every call makes it |
| `src/math/haar_transform.cpp`, `src/math/hough_transform.cpp`, `getMatrixRoots` of `src/math/math_base.cpp` | `Math.v`, `Arith.v` | |
| the rest of `src/math/math_base.h/.cpp` | `Geom.v` | `operator==` of LineBase2D, which does not compile (it calls `parallel`, which does not exist); number types other than float and double |
| `src/tool/light_correction.h/.cpp` | `Light.v` | |
| `src/fft.cpp`, `src/math/fft_base.h/.cpp` | `Fft.v`, `Cplx.v` (copy, move, destruction of ComplexData) | plans that cannot be allocated |
| `src/thirdparty/kissfft/kiss_fft.c`, `kiss_fftnd.c` | `Kiss.v`, `Fft.v`, `Measure.v` (kiss_fft_next_fast_size) | more than two dimensions; the FIXED_POINT, USE_SIMD and OpenMP variants |
| `ImageTypeManager` of `src/image_function_helper.h/.cpp`, `src/penguinv/penguinv.cpp`, `src/penguinv/image_manager.h` | `Table.v` | the forms that call the form with all parameters; one image passed twice |
| `src/cuda/image_function_cuda.cu`, kernel parameters of `src/cuda/cuda_helper.cu`, `setThreadsPerBlock` of `src/cuda/cuda_device.cu` | `Cuda.v`, `ToneMore.v` (GammaCorrection), `CudaRotate.v` (Rotate; float arithmetic is a parameter, `cos` and `sin` are oracles) | the forms that return an image or take whole images; copying between devices; stream selection |
| `src/opencl/image_function_opencl.cpp`, launches of `src/opencl/opencl_helper.cpp`, `setArgument` of `src/opencl/opencl_device.h`, `memorySet` of `src/opencl/opencl_device.cpp` | `OpenCL.v`, `ToneMore.v` (GammaCorrection) | the forms that return an image or take whole images; queue selection |
| constructors of `src/cuda/image_buffer_cuda.cuh`, `image_buffer_cuda_pinned.cuh`, `src/opencl/image_buffer_opencl.h`; `Array` of `src/cuda/cuda_types.cuh`, `src/opencl/opencl_types.h`; streams, queues and managers of `src/cuda/cuda_device.cu`, `src/opencl/opencl_device.h/.cpp`; `GetProgram`, `getMemsetKernel` | `Device.v` | names and capabilities of devices; `synchronize`; kernels and programs apart from the context they are in |
| `src/cuda/cuda_memory.cuh`, `src/opencl/opencl_memory.h`, choice of the allocator by `MemoryManager::memory()` | `DevMem.v` | destructors of the allocators; the size of the memory of a device |
| `src/tool/ui/tool_ui.h` | `Chart.v` | vectors of other types than uint32_t; what the window does with the image |
| `src/ui/x11/x11_ui.cpp`, `src/ui/win/win_ui.cpp`, `src/ui/ui.cpp` | `Window.v` | everything but the copies of the image made by `_setupImage` and `setImage` and when they are made |
| `src/cuda/cuda_fft.cu` | `CudaFft.v` | the transforms (cuFFT); copies of device data; float arithmetic is a parameter; failures of the driver other than out of memory |
| `src/file/png_image.cpp`, `src/file/jpeg_image.cpp`, `src/file/file_image.cpp` | `Codec.v` | releasing of the rows and structures of the libraries, failures of malloc; the functions that return an image (they call the others) |
| `src/file/bmp_image.cpp`, `src/file/raw_image.h` | `File.v` | file names and failures of the file system, alignment of the header fields in memory |
| `src/function_pool.cpp`, `src/function_pool_task.h/.cpp` | `FuncPool.v`, `ToneMore.v` (Normalize, GammaCorrection) | the whole-image wrappers |

### Assumptions of the models

* Memory: blocks of cells, one cell per element of the image type (byte or 16-bit word).  Access outside a block is
  `UB`; forming a pointer past the end is not (the code does it in loop bounds).  `memcpy` on overlapping ranges is `UB`.
* `operator new` never fails in the image functions; in the container and allocator models the block it returns is an
  arbitrary fresh one.  The mutex of the allocator is a flag; its operations do not interleave.
* Thread pool: sequentially consistent interleaving, critical sections atomic, unbounded counters, one client thread per
  provider, one managing thread calling `resize`/`stop`, every task terminates.  `clear()` runs with tasks that do not throw.
* SIMD intrinsics: the definitions at the top of `Simd.v` are their semantics (lists of 128-bit lanes), taken from the
  instruction set manuals.  Build flags range over all combinations the `#error` checks of `cpu_identification.h` accept,
  processor flags over all combinations.
* Function pool: a task is the list of loads and stores its image function makes on one strip (`StripProofs.v` proves that
  this list does what the scalar function does); tasks interleave access by access in an arbitrary order.  `penguinV::F`
  inside a task is the scalar function.  Reductions only read the images, so their strip results do not depend on the order.
* `double` is IEEE binary64 with every operation rounded to nearest even (`Coq.Floats.SpecFloat`); no excess precision, no
  fused multiply-add.  `pow` is an argument of the model.  Converting a double outside the range of the target type is
  undefined; `Normalize` takes the outcome as an argument, so that both the standard's answer and "some value" are covered.
* Filters: `std::nth_element` is any function meeting its contract; `float` is IEEE binary32, `sqrtf` and the other operations
  are correctly rounded; the outcome of converting a float above 255 to `uint8_t` is an argument.
* Number types of the template functions in src/math: a record of operations (`Arith.v`), instantiated with IEEE binary32,
  IEEE binary64 and, where a theorem says "exact", the real numbers, for which the property is one of the algorithm and not
  of its rounding.  `std::cos`, `std::sin` and `std::sort` are arguments of the Hough model.
* Shift and Rotate: `cos` and `sin` of the angle are arguments; `static_cast<int32_t>` of a `uint32_t` is two's complement;
  overflow of `int32_t` is `UB`.
* Points and lines: `cos`, `sin`, `atan2` and `acos( -1 )` are arguments; C117 to C120 and C122 are about exact arithmetic with a
  positive tolerance.
* Blob detection: `sin`, `cos`, `atan2` and `acos( -1 )` are arguments of the model; `std::sort` is any function meeting its
  contract for a strict weak order; a measurement that has not been computed is indeterminate and reading it is `UB`.
* Light correction: the fields of a default-initialised object are indeterminate and reading one is `UB`.
* Fourier transform: allocation succeeds; `floor( sqrt( (double)n ) )` in kf_factor is the integer square root; what uninitialised
  arrays and buffers hold is an argument.  The theorems about values of transforms are in exact arithmetic (`exact`), those about
  memory in every number type.
* Facade: contents of images, conversions and functions are arguments of the model; arguments are evaluated in any order; the
  growth of `std::vector` is an argument.  A destructor that throws ends the program.
* CUDA: a device thread is a sequence of single loads, stores and atomic updates of one element; the threads of a grid run
  in any interleaving; a launch is accepted exactly when the grid is within the limits of the device.  `cudaMemcpy` waits for
  kernels of the default stream and not for those of a stream made with `cudaStreamNonBlocking` (CUDA documentation).  Device
  arrays live in a block chosen by an oracle.  Host and device memory are blocks of one memory; other failures of the driver are
  not modelled; allocations are not given back while a kernel uses them.
* OpenCL: as CUDA; `runKernel` waits for the kernel.  `clSetKernelArg` refuses an index beyond the parameters of the kernel and
  a size other than that of the parameter; `clEnqueueNDRangeKernel` refuses a missing argument, local sizes that do not divide
  the global ones or exceed the limits (OpenCL specification).  Programs compile; which of two kernels of one name is taken is an
  argument.  `size_t` has 64 bits.  Lost devices and failed copies are not modelled.
* Devices: one host thread.  Calls of the driver succeed unless an argument of the model says otherwise.  A CUDA stream belongs
  to the device that is current when it is made.  A kernel and a queue of different contexts give `CL_INVALID_CONTEXT` (OpenCL
  specification).  A new context never equals an earlier one.
* Device memory: what cudaMalloc, clCreateBuffer and clCreateSubBuffer answer is part of the operation; a new block does not
  overlap one in use, a new handle is not one in use.  cudaFree accepts exactly the starts of blocks, of any device (unified
  addressing).  clCreateSubBuffer refuses offsets the device does not allow.
* libpng and libjpeg: a decoder is a function from files to pictures (or none: the library reports an error, and since the code
  installs no error handler the process ends), an encoder a function from rows to files, both arguments of the theorems.  The
  layout of the rows that libpng delivers after the transformations the code asks for is modelled from its documentation
  (`png_format`).  That libpng is lossless is a hypothesis of C155.  libjpeg refuses sizes above 65500 and components that do not
  fit the colour space.  Whether fopen and the creation of the structures of libpng succeed is an argument (`luck`).
* Files: a file is its sequence of bytes; opening and writing succeed.  `sizeof( BitmapFileHeader )` is 20 and
  `sizeof( BitmapInfoHeader )` is 56 (64-bit ABI); the machine is little endian.  New memory holds arbitrary bytes.
* `std::` containers, algorithms and streams behave as documented.

### Reading the manifest

`proved`: every clause of the property has a theorem.  `partial`: some clause is false of the code, shown by a theorem
`..._refuted` with a concrete witness (`Cxx_claim` is the full statement), or only a restricted form is proved
(`..._partial`); the note says which.
