{"id": "C01", "title": "Two-input pixelwise functions compute the documented value at every pixel and touch nothing else", "statement": "AbsoluteDifference, BitwiseAnd, BitwiseOr, BitwiseXor, Maximum and Minimum, given images of one colour count with a valid region of interest (ROI) inside each of them, return normally; afterwards every channel of every pixel of the output ROI holds |a-b|, a&b, a|b, a^b, max(a,b) or min(a,b) of the two input pixels as they were before the call, and every other byte of memory (other pixels, row padding, other images) is unchanged. This holds also when the output ROI is exactly one of the input ROIs (in-place use).", "quantifier": "for all images up to 4 GiB, all row paddings, all ROI positions and sizes, all pixel values, output disjoint from or identical to an input ROI", "why_tests_cant": "the number of (size, padding, ROI, content, aliasing) combinations is unbounded; unit tests sample a few random uniform images with fresh outputs", "anchors": ["src/image_function.cpp:AbsoluteDifference", "src/image_function.cpp:BitwiseAnd", "src/image_function.cpp:BitwiseOr", "src/image_function.cpp:BitwiseXor", "src/image_function.cpp:Maximum", "src/image_function.cpp:Minimum"]}
{"id": "C02", "title": "Subtract saturates at zero on every pixel, for every row layout of its three images", "statement": "Subtract with valid ROIs writes max(a-b,0) of the corresponding input pixels into every channel of the output ROI and changes nothing else, whatever row alignment each of the three images has.", "quantifier": "for all images, row paddings, ROIs, pixel values", "why_tests_cant": "the failing layouts (second input padded, first input and output not) never occur in the test-suite which uses one alignment for all images", "anchors": ["src/image_function.cpp:Subtract", "src/parameter_validation.h:OptimiseRoi"]}
{"id": "C03", "title": "One-input pixelwise functions compute the documented value at every pixel and touch nothing else", "statement": "Invert, Threshold (one and two bounds), LookupTable and Copy with valid ROIs write 255-v, the 0/255 decision, table[v] or v for every pixel of the ROI and leave every other byte unchanged; Invert, Threshold and LookupTable may be used in place, Copy needs regions that do not overlap. LookupTable throws unless the table has exactly 256 entries.", "quantifier": "for all images up to 4 GiB, paddings, ROIs, thresholds, tables, pixel values", "why_tests_cant": "unbounded input space; in-place and padded layouts are not tested", "anchors": ["src/image_function.cpp:Invert", "src/image_function.cpp:Threshold", "src/image_function.cpp:LookupTable", "src/image_function.cpp:Copy"]}
{"id": "C04", "title": "An invalid region of interest is rejected with an exception and no memory is written", "statement": "For every image function that takes ROIs, the call throws without having modified any memory whenever some image is empty, has a colour count other than 1, 3 or 4, the ROI has zero width or height, or x+width > image width or y+height > image height computed in unbounded arithmetic (so also when the 32-bit sums wrap around).", "quantifier": "for all 32-bit start coordinates and sizes, including those whose sums overflow, and all images", "why_tests_cant": "overflow combinations span 2^128 argument tuples; tests try a handful", "anchors": ["src/parameter_validation.h:ValidateImageParameters", "src/image_function.cpp"]}
{"id": "C05", "title": "No image function with a valid ROI ever accesses memory outside its images", "statement": "Each of the modelled image functions called with images satisfying the container invariant and a valid ROI performs only in-bounds reads and writes and terminates.", "quantifier": "for all images up to 4 GiB, all valid ROIs, all pixel values", "why_tests_cant": "an out-of-bounds access usually goes unnoticed in a test run; absence for all geometries is a universal claim", "anchors": ["src/image_function.cpp"]}
{"id": "C06", "title": "Fill sets exactly the ROI", "statement": "Fill writes the given value to every channel of every pixel of the ROI and to no other byte.", "quantifier": "for all images, paddings, ROIs, values", "why_tests_cant": "frame condition over all other bytes cannot be sampled", "anchors": ["src/image_function.cpp:Fill"]}
{"id": "C07", "title": "Flip mirrors, and flipping twice restores the image", "statement": "Flip(horizontal, vertical) moves pixel (x,y) of the ROI to (w-1-x or x, h-1-y or y) of the output ROI and changes nothing else; applying the same flip again to the result yields the original ROI.", "quantifier": "for all gray-scale images, ROIs, both flags", "why_tests_cant": "universal over geometry and content", "anchors": ["src/image_function.cpp:Flip"]}
{"id": "C08", "title": "Transpose exchanges coordinates and is an involution", "statement": "Transpose writes pixel (x,y) of the input ROI to (y,x) of the output ROI and changes nothing else; transposing the result gives back the original ROI.", "quantifier": "for all gray-scale images and ROIs", "why_tests_cant": "universal over geometry and content", "anchors": ["src/image_function.cpp:Transpose"]}
{"id": "C09", "title": "Splitting a colour image into channels and merging them back is the identity", "statement": "Split writes channel c of every RGB ROI pixel to output c; Merge builds pixels from three gray-scale images; Merge after Split reproduces the original ROI; ExtractChannel agrees with the corresponding Split output; nothing else changes.", "quantifier": "for all RGB images, ROIs, pixel values", "why_tests_cant": "universal over geometry and content", "anchors": ["src/image_function.cpp:Split", "src/image_function.cpp:Merge", "src/image_function.cpp:ExtractChannel"]}
{"id": "C10", "title": "RgbToBgr swaps red and blue and is an involution", "statement": "RgbToBgr into a separate output writes (b,g,r) for every pixel (r,g,b) of the ROI and changes nothing else; applying it twice restores the ROI.", "quantifier": "for all RGB images and ROIs with output memory disjoint from the input", "why_tests_cant": "universal over geometry and content", "anchors": ["src/image_function.cpp:RgbToBgr"]}
{"id": "C11", "title": "RgbToBgr works in place", "statement": "RgbToBgr called with one image as input and output, same ROI, swaps red and blue of every ROI pixel.", "quantifier": "for all RGB images and ROIs", "why_tests_cant": "tests never call it in place", "anchors": ["src/image_function.cpp:RgbToBgr", "src/image_function_simd.cpp:avx::RgbToBgr"]}
{"id": "C12", "title": "8-bit to 16-bit conversion and back is lossless", "statement": "ConvertTo16Bit maps every value v of the ROI to 256*v, ConvertTo8Bit maps v to v/256 (gray-scale images, or colour images with the input ROI starting at column 0); converting to 16 bit and back restores every pixel of the ROI.", "quantifier": "for all such images and ROIs", "why_tests_cant": "universal over geometry and content", "anchors": ["src/image_function.cpp:ConvertTo16Bit", "src/image_function.cpp:ConvertTo8Bit"]}
{"id": "C13", "title": "Bit-depth conversion honours the ROI offset of colour images", "statement": "ConvertTo16Bit and ConvertTo8Bit convert exactly the ROI pixels of colour images for every input start column.", "quantifier": "for all colour images and ROI offsets", "why_tests_cant": "tests do not use colour images with an offset", "anchors": ["src/image_function.cpp:ConvertTo16Bit", "src/image_function.cpp:ConvertTo8Bit"]}
{"id": "C14", "title": "Gray to RGB and back to gray is the identity", "statement": "ConvertToRgb of a gray-scale ROI replicates each value into three channels; ConvertToGrayScale of an RGB ROI writes the average (r+g+b)/3; gray -> RGB -> gray restores every pixel.", "quantifier": "for all gray-scale and RGB images and ROIs", "why_tests_cant": "universal over geometry and content", "anchors": ["src/image_function.cpp:ConvertToGrayScale", "src/image_function.cpp:ConvertToRgb"]}
{"id": "C15", "title": "Colour conversion of RGBA images is pixel-accurate", "statement": "ConvertToGrayScale and ConvertToRgb of an RGBA image produce, for every ROI pixel, a value that depends only on that pixel.", "quantifier": "for all RGBA images and ROIs", "why_tests_cant": "RGBA input is accepted by validation but untested", "anchors": ["src/image_function.cpp:ConvertToGrayScale", "src/image_function.cpp:ConvertToRgb"]}
{"id": "C16", "title": "Histogram counts every ROI pixel exactly once", "statement": "Histogram of a gray-scale ROI returns 256 counters; counter v equals the number of ROI samples with value v and the counters add up to width*height.", "quantifier": "for all gray-scale images, ROIs, contents", "why_tests_cant": "counting correctness over all contents", "anchors": ["src/image_function.cpp:Histogram"]}
{"id": "C17", "title": "Histogram of colour images counts every sample of the ROI", "statement": "Histogram accepts RGB and RGBA images; the counters add up to width*height*channels and no memory outside the image is read.", "quantifier": "for all colour images and ROIs", "why_tests_cant": "only gray-scale images are tested", "anchors": ["src/image_function.cpp:Histogram"]}
{"id": "C18", "title": "Masked histogram counts exactly the unmasked pixels", "statement": "Histogram with a mask on gray-scale images counts pixel (x,y) of the ROI iff the mask pixel is non-zero; counter v is the number of such pixels with value v.", "quantifier": "for all gray-scale images, masks, ROIs", "why_tests_cant": "universal over contents", "anchors": ["src/image_function.cpp:Histogram (mask overload)"]}
{"id": "C19", "title": "ProjectionProfile sums columns or rows and agrees with Sum", "statement": "Horizontal profile entry i is the sum of column i of the ROI samples, vertical profile entry j is the sum of row j (modulo 2^32); adding up either profile gives Sum of the ROI modulo 2^32.", "quantifier": "for all images, ROIs, both directions", "why_tests_cant": "universal over contents, includes wrap-around", "anchors": ["src/image_function.cpp:ProjectionProfile", "src/image_function.cpp:Sum"]}
{"id": "C20", "title": "Sum is the exact pixel sum modulo 2^32 and exact whenever it fits", "statement": "Sum returns the sum of all gray-scale ROI samples modulo 2^32; if width*height <= 16843009 it is the exact mathematical sum.", "quantifier": "for all gray-scale images and ROIs", "why_tests_cant": "wrap-around needs images of more than 16 MB; universal over contents", "anchors": ["src/image_function.cpp:Sum"]}
{"id": "C21", "title": "Resize picks the nearest lower source pixel, stays inside both ROIs, and is the identity for equal sizes", "statement": "Resize writes to output pixel (x,y) the input pixel (floor(x*wIn/wOut), floor(y*hIn/hOut)) of the input ROI, for every channel, never reads or writes outside the two ROIs, changes nothing else, and equals Copy when the ROI sizes agree.", "quantifier": "for all image pairs of one colour count and all ROI sizes whose index products fit 32 bits", "why_tests_cant": "index arithmetic over all size pairs", "anchors": ["src/image_function.cpp:Resize"]}
{"id": "C22", "title": "Resize is memory-safe for every accepted argument combination", "statement": "Resize with any valid ROIs, including images of different colour counts, either throws or accesses only the two images; in particular the value-returning form works for colour images.", "quantifier": "for all images, colour counts, ROI sizes", "why_tests_cant": "colour images are never resized in the tests", "anchors": ["src/image_function.cpp:Resize", "src/image_function_helper.cpp:Resize"]}
{"id": "C23", "title": "Normalize stretches the ROI to the full range, monotonically", "statement": "Normalize of a non-constant gray-scale ROI maps the minimum to 0 and the maximum to 255, is monotone, every result is the correctly rounded value of (v-min)*255/(max-min); a constant ROI is copied unchanged.", "quantifier": "for all gray-scale images, ROIs; in IEEE double arithmetic", "why_tests_cant": "depends on the floating-point evaluation for every (min,max,v) triple", "anchors": ["src/image_function.cpp:Normalize"]}
{"id": "C24", "title": "IsEqual decides equality of ROIs and IsBinary decides presence of at most two values", "statement": "IsEqual returns true iff all samples of the two ROIs agree; IsBinary returns true iff the ROI contains fewer than three distinct values.", "quantifier": "for all images and ROIs", "why_tests_cant": "both directions of an equivalence over all contents", "anchors": ["src/image_function.cpp:IsEqual", "src/image_function.cpp:IsBinary"]}
{"id": "C25", "title": "Accumulate adds the ROI into the accumulator array", "statement": "Accumulate adds sample (x,y) of the gray-scale ROI to entry y*width+x of the array modulo 2^32 and throws, leaving the array unchanged, if its length is not width*height.", "quantifier": "for all images, ROIs, accumulator contents", "why_tests_cant": "universal over contents and history of calls", "anchors": ["src/image_function.cpp:Accumulate"]}
{"id": "C26", "title": "Pixel access reads and writes exactly one pixel", "statement": "GetPixel after SetPixel returns the value and every other byte is unchanged; SetPixel with coordinate vectors whose points are all inside sets exactly these points; coordinates outside throw.", "quantifier": "for all images, coordinates, coordinate vectors", "why_tests_cant": "universal over coordinates and contents", "anchors": ["src/image_function.cpp:GetPixel", "src/image_function.cpp:SetPixel"]}
{"id": "C27", "title": "A failed bulk pixel write has no effect", "statement": "SetPixel with coordinate vectors either writes all points or throws without modifying the image.", "quantifier": "for all images and coordinate vectors", "why_tests_cant": "all-or-nothing over arbitrary lists of points", "anchors": ["src/image_function.cpp:SetPixel"]}
{"id": "C28", "title": "Binary dilation and erosion are morphological box filters", "statement": "BinaryDilate on a 0/255 image sets a pixel iff some white pixel lies within the (clamped) box radius inside the ROI; BinaryErode clears a pixel iff some black pixel lies within it; pixels outside the ROI do not change.", "quantifier": "for all binary gray-scale images, ROIs and radii", "why_tests_cant": "in-place two-pass algorithm with run-length logic; correctness over all run patterns", "anchors": ["src/image_function.cpp:BinaryDilate", "src/image_function.cpp:BinaryErode"]}
{"id": "C29", "title": "Gamma correction and threshold selection produce well-formed tables and optimal thresholds", "statement": "The gamma lookup table has 256 entries, each the rounded value clamped to 255, monotone for a,gamma > 0 if the power function is; GetThreshold returns the smallest index maximising the between-class variance computed by its formula and always a value below 255.", "quantifier": "for all gamma parameters (power function as oracle), all histograms", "why_tests_cant": "argmax over all 256-entry histograms", "anchors": ["src/image_function_helper.cpp:GetGammaCorrectionLookupTable", "src/image_function_helper.cpp:GetThreshold"]}
{"id": "C30", "title": "ReplaceChannel, RgbToRgba and RgbaToRgb move exactly the named channels", "statement": "ReplaceChannel writes the gray-scale ROI into the given channel of the RGB ROI and leaves the other channels untouched; RgbToRgba copies three channels and sets alpha to 255; RgbaToRgb drops alpha; RgbaToRgb after RgbToRgba is the identity.", "quantifier": "for all images and ROIs", "why_tests_cant": "universal over geometry and content", "anchors": ["src/image_function.cpp:ReplaceChannel", "src/image_function.cpp:RgbToRgba", "src/image_function.cpp:RgbaToRgb"]}
{"id": "C31", "title": "Images of 4 GiB and more are processed like smaller ones", "statement": "The pixelwise functions compute their result for images whose byte size reaches or exceeds 2^32.", "quantifier": "for all images representable by the container", "why_tests_cant": "tests cannot allocate such images", "anchors": ["src/image_function.cpp", "src/image_buffer.h"]}
{"id": "C32", "title": "Vectorised pixelwise functions equal the scalar ones on every instruction set", "statement": "For every instruction set (AVX-512, AVX2, SSE2, NEON, none), AbsoluteDifference, BitwiseAnd/Or/Xor, Invert, Maximum, Minimum and both Threshold functions of Image_Function_Simd leave the same memory as the scalar functions: identical ROI contents, identical exceptions, no access outside the images.", "quantifier": "for all ISAs, image geometries, paddings, ROI widths (every remainder modulo the vector length), contents, in-place use", "why_tests_cant": "every (width mod vector size, offset, ISA) combination must agree; CI machines run one ISA", "anchors": ["src/image_function_simd.cpp"]}
{"id": "C33", "title": "Vectorised Subtract equals saturating subtraction for every row layout", "statement": "Image_Function_Simd::Subtract on the vector path writes max(a-b,0) for all ROI pixels for all ISAs and row paddings.", "quantifier": "for all ISAs, geometries, contents", "why_tests_cant": "as above", "anchors": ["src/image_function_simd.cpp:Subtract"]}
{"id": "C34", "title": "Vectorised Sum equals scalar Sum", "statement": "Image_Function_Simd::Sum returns the same 32-bit value as Image_Function::Sum for each ISA; no 16-bit lane ever overflows.", "quantifier": "for all ISAs, images, ROIs, contents", "why_tests_cant": "lane overflow would need adversarial contents", "anchors": ["src/image_function_simd.cpp:Sum"]}
{"id": "C35", "title": "Vectorised Accumulate equals scalar Accumulate on 128-bit instruction sets", "statement": "Image_Function_Simd::Accumulate adds each ROI sample to the accumulator entry of the same pixel on SSE2 and NEON.", "quantifier": "for SSE2 and NEON, all images, accumulators", "why_tests_cant": "universal over geometry and content", "anchors": ["src/image_function_simd.cpp:Accumulate"]}
{"id": "C36", "title": "Vectorised Accumulate equals scalar Accumulate on AVX2 and AVX-512", "statement": "Image_Function_Simd::Accumulate adds each ROI sample to the accumulator entry of the same pixel on AVX2 and AVX-512.", "quantifier": "for AVX2 and AVX-512, all images, accumulators", "why_tests_cant": "the test-suite fills images with one value so lane permutations are invisible", "anchors": ["src/image_function_simd.cpp:Accumulate"]}
{"id": "C37", "title": "Vectorised ProjectionProfile equals scalar ProjectionProfile: vertical everywhere, horizontal on SSE2", "statement": "Image_Function_Simd::ProjectionProfile returns the scalar vertical profile on every ISA and the scalar horizontal profile on SSE2.", "quantifier": "for all ISAs, images, ROIs", "why_tests_cant": "universal over geometry and content, 16-bit lane overflow", "anchors": ["src/image_function_simd.cpp:ProjectionProfile"]}
{"id": "C38", "title": "Vectorised horizontal ProjectionProfile equals the scalar one on AVX2, AVX-512 and NEON", "statement": "Image_Function_Simd::ProjectionProfile returns the scalar horizontal profile on AVX2, AVX-512 and NEON.", "quantifier": "for these ISAs, all images, ROIs", "why_tests_cant": "uniform test images hide lane permutations", "anchors": ["src/image_function_simd.cpp:ProjectionProfile"]}
{"id": "C39", "title": "Vectorised bit-depth conversions equal the scalar ones: NEON both, SSE2 to 8 bit", "statement": "Image_Function_Simd::ConvertTo16Bit and ConvertTo8Bit on NEON and ConvertTo8Bit on SSE2 produce the scalar results.", "quantifier": "for these ISAs, all images, ROIs", "why_tests_cant": "universal over geometry and content", "anchors": ["src/image_function_simd.cpp:ConvertTo16Bit", "src/image_function_simd.cpp:ConvertTo8Bit"]}
{"id": "C40", "title": "Vectorised bit-depth conversions equal the scalar ones on x86", "statement": "Image_Function_Simd::ConvertTo16Bit on SSE2, AVX2 and AVX-512 and ConvertTo8Bit on AVX2 and AVX-512 produce the scalar results.", "quantifier": "for these ISAs, all images, ROIs", "why_tests_cant": "uniform test images hide lane permutations and duplicated halves", "anchors": ["src/image_function_simd.cpp:ConvertTo16Bit", "src/image_function_simd.cpp:ConvertTo8Bit"]}
{"id": "C41", "title": "Vectorised ConvertToRgb, Flip and RgbToBgr equal the scalar functions", "statement": "On NEON and on x86 builds with SSSE3 enabled these functions give the scalar result for separate input and output.", "quantifier": "for all geometries, contents", "why_tests_cant": "shuffle tables, overlapping vector stores, all remainders", "anchors": ["src/image_function_simd.cpp:ConvertToRgb", "src/image_function_simd.cpp:Flip", "src/image_function_simd.cpp:RgbToBgr"]}
{"id": "C42", "title": "Vectorised ConvertToRgb, Flip and RgbToBgr work on every build configuration", "statement": "On every instruction-set build configuration (including SSE2 without SSSE3, the default x86-64 target) these functions return normally for valid arguments.", "quantifier": "for all build configurations and geometries", "why_tests_cant": "tests run on one build configuration", "anchors": ["src/image_function_simd.cpp:ConvertToRgb", "src/image_function_simd.cpp:Flip", "src/image_function_simd.cpp:RgbToBgr"]}
{"id": "C43", "title": "The image container keeps its geometry consistent", "statement": "After any sequence of constructor, destructor, resize, clear, setColorCount, setAlignment, copy, move, swap, fill, assign, element write and mutate operations no operation frees a buffer twice or accesses memory outside a buffer; a non-empty image has positive width and height, row size = width*colourCount rounded up to the alignment, and exclusively owns a live buffer of at least rowSize*height elements; an image without a buffer has zero width or height; no buffer is leaked.", "quantifier": "for all operation sequences whose row sizes fit 32 bits and whose mutate calls stay below 2^32 elements", "why_tests_cant": "unbounded histories", "anchors": ["src/image_buffer.h:ImageTemplate"]}
{"id": "C44", "title": "A non-empty image always has a buffer large enough for its rows, for all dimensions", "statement": "After resize to any width and height with any colour count and alignment, each row of rowSize elements holds width*colourCount samples; after a successful mutate the image has a buffer of rowSize*height elements.", "quantifier": "for all 32-bit dimensions, 8-bit colour counts and alignments", "why_tests_cant": "32-bit overflow needs huge dimensions", "anchors": ["src/image_buffer.h:resize", "src/image_buffer.h:mutate"]}
{"id": "C45", "title": "Copies are independent and equal; moves transfer", "statement": "After copy construction or assignment the two images have equal geometry and contents and later writes to one do not affect the other; after move assignment the target has the source's former state.", "quantifier": "for all distinct images and subsequent writes", "why_tests_cant": "arbitrary later histories", "anchors": ["src/image_buffer.h:copy", "src/image_buffer.h:swap"]}
{"id": "C46", "title": "Self-assignment leaves an image unchanged", "statement": "Assigning an image to itself leaves its geometry and contents unchanged.", "quantifier": "for all images", "why_tests_cant": "untested aliasing", "anchors": ["src/image_buffer.h:copy"]}
{"id": "C47", "title": "Work splitting tiles the ROI exactly", "statement": "The region splitter divides a width x height ROI among n threads into at most n non-empty rectangles that are pairwise disjoint, lie inside the ROI and cover every pixel.", "quantifier": "for all ROI positions, sizes and thread counts", "why_tests_cant": "integer-division edge cases over all sizes and thread counts", "anchors": ["src/function_pool_task.cpp:AreaInfo::_calculate"]}
{"id": "C48", "title": "Multi-threaded image functions equal single-threaded ones under every schedule", "statement": "Function_Pool versions of pixelwise functions give the same memory as the single-threaded function, for every thread count and every interleaving of the strip tasks.", "quantifier": "for all thread counts, schedules, geometries, contents", "why_tests_cant": "schedules are exponential in number; races are not reproducible in tests", "anchors": ["src/function_pool_task.cpp", "src/function_pool.cpp"]}
{"id": "C49", "title": "Multi-threaded reductions equal single-threaded ones", "statement": "Function_Pool::Sum, Histogram, ProjectionProfile and IsEqual on gray-scale images combine strip results to exactly the single-threaded result for every split.", "quantifier": "for all thread counts and geometries", "why_tests_cant": "needs all splits", "anchors": ["src/function_pool_task.cpp:OutputInfo"]}
{"id": "C50", "title": "Multi-threaded ProjectionProfile accepts colour images like the single-threaded one", "statement": "Function_Pool::ProjectionProfile returns the single-threaded result for RGB images.", "quantifier": "for all colour images, directions and thread counts", "why_tests_cant": "colour images are untested", "anchors": ["src/function_pool.cpp:ProjectionProfile"]}
{"id": "C51", "title": "Multi-threaded Resize equals single-threaded Resize", "statement": "Function_Pool::Resize produces the same output as Image_Function::Resize for all size pairs and thread counts.", "quantifier": "for all sizes and thread counts", "why_tests_cant": "only even divisions are tested", "anchors": ["src/function_pool_task.cpp:Resize"]}
{"id": "C52", "title": "Every scheduled task runs exactly once and wait returns only when all are done", "statement": "When a task group of n tasks is added to a pool with at least one worker, each id 0..n-1 is executed exactly once, waiting returns only after all n executions ended, and the reported success is true iff none threw.", "quantifier": "for all n, worker counts and interleavings", "why_tests_cant": "schedule space is unbounded", "anchors": ["src/thread_pool.cpp:TaskProvider", "src/thread_pool.h"]}
{"id": "C53", "title": "The thread pool never deadlocks while it has workers", "statement": "From every reachable state of a pool with at least one live worker in which tasks of a group are outstanding, some worker can make progress, and every fair execution completes the group.", "quantifier": "for all reachable states", "why_tests_cant": "liveness over all interleavings", "anchors": ["src/thread_pool.cpp:ThreadPool"]}
{"id": "C54", "title": "Cancelling work never blocks the waiter", "statement": "After ThreadPool::clear or ThreadPool::remove, a provider waiting for its group is released.", "quantifier": "for all states at the time of cancellation", "why_tests_cant": "tests never cancel a queue with pending tasks", "anchors": ["src/thread_pool.cpp:ThreadPool::clear", "src/thread_pool.cpp:ThreadPool::remove"]}
{"id": "C55", "title": "A stopped pool can be restarted", "statement": "After stop(), resize(n) with n>0 gives a pool whose n workers accept and execute tasks.", "quantifier": "for all n and histories", "why_tests_cant": "untested history", "anchors": ["src/thread_pool.cpp:ThreadPool::stop", "src/thread_pool.cpp:ThreadPool::resize"]}
{"id": "C56", "title": "Live allocations never overlap and stay inside the arena", "statement": "In every history of reserve/allocate/free calls, the byte ranges handed out and not yet freed are pairwise disjoint, inside the reserved arena, and at least as large as requested; free never accesses memory outside its own tables.", "quantifier": "for all histories of allocations and frees", "why_tests_cant": "unbounded histories", "anchors": ["src/memory/memory_allocator.h:BaseMemoryManager", "src/memory/cpu_memory.h"]}
{"id": "C57", "title": "The allocator conserves memory", "statement": "Free plus allocated bytes always equal the reserved size, in every history.", "quantifier": "for all histories", "why_tests_cant": "unbounded histories", "anchors": ["src/memory/memory_allocator.h:_merge", "src/memory/memory_allocator.h:_split"]}
{"id": "C58", "title": "Freeing everything restores the arena", "statement": "After all allocations are freed, any request that the fresh arena satisfied is satisfied from the arena again.", "quantifier": "for all histories", "why_tests_cant": "fragmentation depends on the free order; tests free in one order", "anchors": ["src/memory/memory_allocator.h:_merge", "src/memory/memory_allocator.h:_split"]}
{"id": "C59", "title": "A failed allocation leaves the allocator usable", "statement": "If an allocation cannot be served (exception), later allocate and free calls still return.", "quantifier": "for all states and requests", "why_tests_cant": "needs exception inside the locked region", "anchors": ["src/memory/memory_allocator.h:_allocate"]}
{"id": "C60", "title": "Blob detection returns exactly the 8-connected components", "statement": "find on a gray-scale ROI returns each 8-connected component of pixels at or above the threshold exactly once: every such pixel belongs to exactly one blob and two pixels are in the same blob iff joined by a chain of 8-neighbour foreground pixels inside the ROI; edge points are the blob pixels with a background 8-neighbour; no out-of-bounds access occurs.", "quantifier": "for all images, ROIs, thresholds", "why_tests_cant": "connectivity over all images", "anchors": ["src/blob_detection.cpp:BlobDetection::find"]}
{"id": "C61", "title": "Blob filters keep exactly the blobs inside the limits", "statement": "A blob is kept iff each enabled measurement lies in its closed [min,max] interval; a range with min > max is rejected with an exception; sorting returns a permutation ordered by the criterion.", "quantifier": "for all blob lists and parameters", "why_tests_cant": "all parameter combinations", "anchors": ["src/blob_detection.cpp", "src/blob_detection.h"]}
{"id": "C62", "title": "Saving and loading a bitmap preserves every pixel", "statement": "Bitmap Load after Save of an image ROI whose file has at least 76 bytes returns an image of the same size, colour count and pixels.", "quantifier": "for all images (1, 3, 4 channels), alignments and ROIs below 2 GiB with a file of at least 76 bytes", "why_tests_cant": "all sizes, paddings and contents", "anchors": ["src/file/bmp_image.cpp"]}
{"id": "C63", "title": "Saving and loading a small bitmap preserves every pixel", "statement": "Bitmap Load after Save returns the saved pixels for every valid ROI, also very small ones.", "quantifier": "for all ROIs", "why_tests_cant": "the loader's minimum size check exceeds the size of small valid files", "anchors": ["src/file/bmp_image.cpp:Load"]}
{"id": "C64", "title": "Loading a 256-colour bitmap maps every pixel through the palette", "statement": "Load of an 8-bit bitmap with a non-gray palette returns the RGB image whose pixel is the palette entry of the stored index, for every pixel of every row.", "quantifier": "for all palettes, sizes, contents", "why_tests_cant": "row-wise off-by-one is visible only with distinct rows", "anchors": ["src/file/bmp_image.cpp:Load"]}
{"id": "C65", "title": "Loading arbitrary bytes never corrupts memory", "statement": "Bitmap Load on any byte sequence either returns an image (possibly empty) or throws; it never accesses memory outside its buffers.", "quantifier": "for all file contents", "why_tests_cant": "adversarial files, 32-bit overflow of header fields", "anchors": ["src/file/bmp_image.cpp:Load", "src/file/bmp_image.cpp:flipData"]}
{"id": "C66", "title": "Saving and loading a raw image preserves every pixel; byte swapping is an involution", "statement": "Raw Load after Save returns the same pixels for every image without row padding; LittleEndianToBigEndian applied twice is the identity.", "quantifier": "for all images without row padding", "why_tests_cant": "universal over contents", "anchors": ["src/file/raw_image.h"]}
{"id": "C67", "title": "Saving and loading a row-padded raw image preserves every pixel", "statement": "Raw Load after Save returns the same pixels for every image.", "quantifier": "for all images incl. padded rows", "why_tests_cant": "padded rows are not tested", "anchors": ["src/file/raw_image.h"]}
{"id": "C68", "title": "Edge detection reads only inside the ROI and returns separated points", "statement": "For accepted parameters with group factor at most the ROI extent and below 2^31 / 1020, and right offset at most 2^32 minus the line length, find has defined behaviour and its result depends on the ROI pixels only: the points of every scan line, every skip-th one, selected by direction, gradient and edge type. Successive points on one line are at least one pixel apart.", "quantifier": "for all images, ROIs and such parameters, float and double", "why_tests_cant": "universal over contents", "anchors": ["src/edge_detection.cpp"]}
{"id": "C69", "title": "Edge detection is memory-safe for every accepted parameter value", "statement": "For all parameter values accepted by verify, find reads only ROI pixels.", "quantifier": "for all images, ROIs and accepted parameters", "why_tests_cant": "32-bit underflow for large group factors", "anchors": ["src/edge_detection.cpp"]}
{"id": "C70", "title": "Median filter returns the median and keeps borders", "statement": "Median writes, for every interior pixel, the middle element of the sorted kernel window, and copies the border.", "quantifier": "for all images, kernel sizes", "why_tests_cant": "universal over contents", "anchors": ["src/filtering.cpp:Median"]}
{"id": "C71", "title": "Prewitt and Sobel filters stay in bounds and index their magnitude table in range", "statement": "Both filters read only pixels of the image and every table index is in range; results are the table entry of the two gradients; image borders are zero.", "quantifier": "for all images and ROIs", "why_tests_cant": "index range over all 3x3 neighbourhoods", "anchors": ["src/filtering.cpp:Prewitt", "src/filtering.cpp:Sobel"]}
{"id": "C72", "title": "Hough line detection partitions the points", "statement": "find returns true or false without altering the input; when true, the on-line and off-line lists are order-preserving complementary sublists of the input, and every on-line point is within tolerance of the returned line.", "quantifier": "for all point lists and parameters (exact arithmetic)", "why_tests_cant": "unbounded inputs", "anchors": ["src/math/hough_transform.cpp"]}
{"id": "C73", "title": "The inverse Haar transform undoes the direct transform", "statement": "directTransform followed by inverseTransform restores the matrix for every even width and height (exact arithmetic).", "quantifier": "for all matrices", "why_tests_cant": "all sizes and values", "anchors": ["src/math/haar_transform.cpp"]}
{"id": "C74", "title": "Linear system solver solves the system or reports singularity", "statement": "getMatrixRoots, when it returns, yields x with A x = b (exact arithmetic), for every matrix size; it throws when no usable pivot exists.", "quantifier": "for all sizes and matrices", "why_tests_cant": "full pivoting with index bookkeeping over all sizes", "anchors": ["src/math/math_base.cpp:getMatrixRoots"]}
{"id": "C75", "title": "Complex data arithmetic: products, and the centred read-out is a permutation for even sizes", "statement": "complexMultiplication into separate output computes the complex product at every index; ComplexData::get writes every output pixel exactly once (a cyclic half shift) for even width and height.", "quantifier": "for all even sizes and contents", "why_tests_cant": "universal over sizes", "anchors": ["src/math/fft_base.h", "src/fft.cpp"]}
{"id": "C76", "title": "Complex multiplication works in place and the centred read-out is a permutation for odd sizes", "statement": "complexMultiplication with the output being the first operand yields the complex products; ComplexData::get writes every output pixel for odd sizes.", "quantifier": "for all sizes, contents, aliasing", "why_tests_cant": "odd sizes and in-place calls untested", "anchors": ["src/math/fft_base.h", "src/fft.cpp"]}
{"id": "C77", "title": "Light correction flattens the reference image and stays in bounds", "statement": "correct applied to the analysed ROI maps every pixel inside [min,max] to max; correct on an ROI of the analysed size reads only the analysed data and never divides by zero.", "quantifier": "for all images and ROIs", "why_tests_cant": "fixed-point rounding over all (v,max) pairs", "anchors": ["src/tool/light_correction.cpp"]}
{"id": "C78", "title": "Light correction is memory-safe for every call order and image size", "statement": "correct either throws or stays inside its buffers for every accepted image and ROI size, before and after analyze.", "quantifier": "for all call histories and sizes", "why_tests_cant": "size mismatch and failed analysis untested", "anchors": ["src/tool/light_correction.cpp"]}
{"id": "C79", "title": "Function-table registration: merging keeps existing entries and lookups of unknown types throw", "statement": "After any history of registrations the entry found for a type is the one required by the merge rules (first registration stored, later ones fill gaps, forced ones override); unknown types throw.", "quantifier": "for all registration histories and all entries handled by the merge", "why_tests_cant": "unbounded histories", "anchors": ["src/image_function_helper.cpp:ImageTypeManager"]}
{"id": "C80", "title": "Every function of a registered table becomes callable", "statement": "Merging a table makes every function present in it callable for that image type.", "quantifier": "for all registration histories and all table entries", "why_tests_cant": "per-entry omissions only show for untested entries", "anchors": ["src/image_function_helper.cpp:setupTable", "src/penguinv/penguinv.cpp"]}
{"id": "C81", "title": "Type conversion in dispatch always hands a function images of its own type", "statement": "When a function is missing for the image type and conversion is enabled, the penguinV facade calls the substitute function only with images of the substitute type.", "quantifier": "for all facade functions and registered types", "why_tests_cant": "needs a second device type", "anchors": ["src/penguinv/penguinv.cpp", "src/penguinv/image_manager.h"]}
{"id": "C82", "title": "Value-returning forms accept every image their output-parameter forms accept", "statement": "LookupTable returning a new image works for gray-scale, RGB and RGBA images exactly as the form with an output image does.", "quantifier": "for all images, ROIs and tables", "why_tests_cant": "the tests use gray-scale images for the value-returning form", "anchors": ["src/image_function_helper.cpp:LookupTable", "src/image_function_helper.cpp:GammaCorrection", "src/image_function.cpp:LookupTable"]}
{"id": "C83", "title": "Resize picks the nearest lower source pixel for all region sizes", "statement": "Resize writes to output pixel (x,y) the input pixel (floor(x*wIn/wOut), floor(y*hIn/hOut)) for every pair of regions, also when x*wIn exceeds 2^32.", "quantifier": "for all image pairs of one colour count and all ROI sizes", "why_tests_cant": "needs images with products of dimensions above 2^32, far larger than any test image", "anchors": ["src/image_function.cpp:Resize"]}
{"id": "C84", "title": "A chunk from the arena holds the elements asked for, for every element count", "statement": "When allocate<T>(n) returns an address inside the arena, n*sizeof(T) bytes from there are inside the arena.", "quantifier": "for all histories, 64-bit element counts and element sizes", "why_tests_cant": "size_t overflow needs counts above 2^61", "anchors": ["src/memory/cpu_memory.h:allocate"]}
{"id": "C85", "title": "An address from the arena is aligned for its element type", "statement": "When allocate<T> returns an address inside the arena, the address is a multiple of sizeof(T) (sizeof 1, 2, 4, 8).", "quantifier": "for all histories of allocations and frees", "why_tests_cant": "misalignment appears only after particular free orders", "anchors": ["src/memory/memory_allocator.h:_merge", "src/memory/cpu_memory.h:allocate"]}
{"id": "C86", "title": "After wait returns no worker touches the provider", "statement": "Once TaskProvider::_wait has returned for a group, no worker thread accesses the provider object again on behalf of that group, so the caller may destroy it.", "quantifier": "for all task counts, worker counts and interleavings", "why_tests_cant": "a use-after-free window of a few instructions between two threads", "anchors": ["src/thread_pool.cpp:AbstractTaskProvider::_taskRun", "src/thread_pool.cpp:TaskProvider::_wait"]}
{"id": "C87", "title": "No data race on the flags of the pool and its providers", "statement": "No two threads access the worker exit flags or a provider's exception flag at the same time, one of them writing, without a common mutex.", "quantifier": "for all reachable states", "why_tests_cant": "data races rarely change an observed result", "anchors": ["src/thread_pool.cpp:ThreadPool::_workerThread", "src/thread_pool.cpp:ThreadPool::stop", "src/thread_pool.cpp:AbstractTaskProvider::_taskRun"]}
{"id": "C88", "title": "Blob measurements are what their names say", "statement": "The centre of a blob is the mean of its points, its length the largest distance of two contour points, its width and height the number of columns and rows it spans.", "quantifier": "for all blobs with 32-bit coordinates", "why_tests_cant": "the sums overflow only for blobs of large images", "anchors": ["src/blob_detection.cpp:BlobInfo::_getCenter", "src/blob_detection.cpp:BlobInfo::_getLength", "src/blob_detection.cpp:BlobInfo::_getWidth"]}
{"id": "C89", "title": "The elongation of a straight line is its length over its thickness", "statement": "A vertical line of n pixels has elongation n - 1, like a horizontal one.", "quantifier": "for all n and every C library", "why_tests_cant": "the tests only use rectangles in a fixed orientation", "anchors": ["src/blob_detection.cpp:BlobInfo::_getElongation", "src/blob_detection.cpp:getLengthFromCountour"]}
{"id": "C90", "title": "Every reported edge is a rise of the intensity", "statement": "Every point find reports lies inside the ROI, at the interpolated zero crossing of the second derivative next to a steepest positive step of its scan line, in the direction of its kind, on a stretch of rising values with the requested contrast; if asked for, the means on both sides differ by the contrast too.", "quantifier": "for all images, ROIs and parameters as in C68", "why_tests_cant": "floating point rounding, universal over contents", "anchors": ["src/edge_detection.cpp"]}
{"id": "C91", "title": "A step edge is found exactly once and exactly in the middle", "statement": "If the ROI shows two halves that differ by at least the requested contrast, at least two pixels from the border, find reports for every scan line exactly one point, half way between the two pixels, in the list of its kind, and nothing else.", "quantifier": "for all images, positions of the step, sizes, directions, group and skip factors", "why_tests_cant": "exactness in floating point over all sizes", "anchors": ["src/edge_detection.cpp"]}
{"id": "C92", "title": "Every pixel with a full neighbourhood gets its gradient", "statement": "Prewitt and Sobel give every ROI pixel whose eight neighbours lie inside the image the magnitude of its gradients; only pixels on the image border become 0.", "quantifier": "for all images and ROIs", "why_tests_cant": "the tests use whole images or constant ones", "anchors": ["src/filtering.cpp:Prewitt", "src/filtering.cpp:Sobel"]}
{"id": "C93", "title": "The Haar round trip restores doubles to the precision of double", "statement": "A matrix of doubles holding pixel values comes back from directTransform and inverseTransform equal to itself in the sense of pvmath::isEqual (1e-9).", "quantifier": "for all even sizes and pixel values", "why_tests_cant": "the test allows 0.001", "anchors": ["src/math/haar_transform.cpp"]}
{"id": "C94", "title": "The Haar transforms stay inside their vectors", "statement": "Every call of directTransform and inverseTransform either throws or reads and writes only elements of the vectors.", "quantifier": "for all sizes of type size_t and all vectors", "why_tests_cant": "needs sizes whose product wraps", "anchors": ["src/math/haar_transform.cpp"]}
{"id": "C95", "title": "The linear system solver writes the roots whatever the size of the vector passed for them", "statement": "getMatrixRoots never accesses anything outside its vectors for a valid system and any output vector.", "quantifier": "for all systems and output vectors", "why_tests_cant": "the only caller passes a vector of the right size", "anchors": ["src/math/math_base.cpp:getMatrixRoots"]}
{"id": "C96", "title": "In double arithmetic the solver never returns roots of an unsolvable system", "statement": "If getMatrixRoots returns for a matrix and right hand side of integers, the system has a solution.", "quantifier": "for all integer systems up to 2^53", "why_tests_cant": "rounding turns an exact zero pivot into a small non-zero one only for special matrices", "anchors": ["src/math/math_base.cpp:getMatrixRoots"]}
{"id": "C97", "title": "The Hough transform returns for every choice of angles and tolerances", "statement": "HoughTransform returns for all finite parameters.", "quantifier": "for all points and parameters", "why_tests_cant": "needs a tolerance much larger than the step", "anchors": ["src/math/hough_transform.cpp"]}
{"id": "C98", "title": "In float arithmetic the Hough transform reports the largest set of points on a line", "statement": "No set of points that fits into a strip of twice the tolerance along a tried line is larger than the set reported to be on the line.", "quantifier": "for all point lists and parameters", "why_tests_cant": "needs coordinates with coarse spacing compared to the tolerance", "anchors": ["src/math/hough_transform.cpp"]}
{"id": "C99", "title": "Light correction treats colour images channel by channel", "statement": "After the analysis of an image with three or four channels, which the class accepts, correct leaves no channel of the same image with a value other than 0, 255 and one common value.", "quantifier": "for all colour images", "why_tests_cant": "the tests use gray-scale images", "anchors": ["src/tool/light_correction.cpp"]}
{"id": "C100", "title": "findIncorrectPixels reports exactly the black and saturated pixels", "statement": "For an image of the analysed size the result lists every position whose value is 0 or 255 exactly once, in raster order, and no other position.", "quantifier": "for all images of the analysed size", "why_tests_cant": "universal over contents and sizes", "anchors": ["src/tool/light_correction.cpp:findIncorrectPixels"]}
{"id": "C101", "title": "findIncorrectPixels reads only the image", "statement": "After a successful analysis findIncorrectPixels returns or throws for every image.", "quantifier": "for all analysed images and all images", "why_tests_cant": "needs an image smaller than the analysed one", "anchors": ["src/tool/light_correction.cpp:findIncorrectPixels"]}
{"id": "C102", "title": "Filtering in the Fourier domain computes the circular convolution of square images", "statement": "For two gray-scale images of the same even square size, transforming both, multiplying the spectra into a third array, transforming back and calling get yields at (x, y) the circular convolution of the images at ((x + n/2) mod n, (y + n/2) mod n), as long as the values fit a byte (exact arithmetic).", "quantifier": "for all even sizes and all contents", "why_tests_cant": "random images of a few sizes, one operand fixed", "anchors": ["src/fft.cpp", "src/thirdparty/kissfft"]}
{"id": "C103", "title": "Convolution with the Dirac image, multiplied in place, returns the image", "statement": "The procedure of the unit test returns the input image for every even square size and every content (exact arithmetic).", "quantifier": "for all even square sizes and contents", "why_tests_cant": "tests a few sizes", "anchors": ["src/fft.cpp", "test/unit_tests/unit_test_fft.cpp"]}
{"id": "C104", "title": "Convolution with the Dirac image returns the image for every even width and height", "statement": "As above, with the product in an array of its own, for images that are not square.", "quantifier": "for all even widths and heights", "why_tests_cant": "tests use square images only", "anchors": ["src/fft.cpp:_makePlans"]}
{"id": "C105", "title": "Complex data is memory-safe for every size", "statement": "No sequence of resize, set, get, multiplication and transforms reads or writes outside the arrays.", "quantifier": "for all sizes of type uint32_t", "why_tests_cant": "needs 2^32 elements", "anchors": ["src/math/fft_base.h:resize", "src/fft.cpp"]}
{"id": "C106", "title": "kiss_fft computes the discrete Fourier transform for every length", "statement": "For every length up to 2^30, prime factors included, direct and inverse, the plan is made, the transform returns and the result is the sum of x(s) e^(-+ 2 pi i s t / n) (exact arithmetic and exact twiddle factors).", "quantifier": "for all lengths and inputs", "why_tests_cant": "mixed radix 2, 3, 4, 5 and generic butterflies over unbounded recursion", "anchors": ["src/thirdparty/kissfft/kiss_fft.c"]}
{"id": "C107", "title": "SIMD functions win over scalar ones whatever the order of static initialisation", "statement": "With the scalar and the SIMD table registered in either order, the entry of each merged function for CPU images is the SIMD function where there is one and the scalar function otherwise.", "quantifier": "for all orders and interleaved registrations of other types", "why_tests_cant": "the order is fixed by the linker in any one build", "anchors": ["src/image_function_helper.cpp:setupTable", "src/image_function.cpp", "src/image_function_simd.cpp"]}
{"id": "C108", "title": "Conversions between image types: the last registration counts, missing ones throw", "statement": "After any history convert uses the conversion registered last for the pair of types and throws if there is none; a type cannot be converted to itself; imageTypes lists the types with a table once each in ascending order.", "quantifier": "for all histories", "why_tests_cant": "unbounded histories", "anchors": ["src/image_function_helper.cpp:setConvertFunction", "src/image_function_helper.cpp:imageTypes"]}
{"id": "C109", "title": "A facade call with images that cannot be converted throws", "statement": "Threshold of the facade returns or throws for images of any types and any registry.", "quantifier": "for all registries, types and evaluation orders", "why_tests_cant": "needs a third image type", "anchors": ["src/penguinv/image_manager.h", "src/penguinv/penguinv.cpp:Threshold"]}
{"id": "C110", "title": "The facade converts both inputs of AbsoluteDifference", "statement": "AbsoluteDifference of the facade on images of another type gives the function converted images and converts the result back.", "quantifier": "for all registries, types and evaluation orders", "why_tests_cant": "needs two device inputs and a missing device function", "anchors": ["src/penguinv/image_manager.h", "src/penguinv/penguinv.cpp:AbsoluteDifference"]}
{"id": "C111", "title": "The substitute for a missing function is that of the lowest type that has one", "statement": "The facade uses the function of the type of the first image if there is one; otherwise, with conversion enabled, that of the registered type with the lowest number that has one; otherwise it throws.", "quantifier": "for all registration histories", "why_tests_cant": "unbounded histories", "anchors": ["src/penguinv/penguinv.cpp:initialize"]}
{"id": "C112", "title": "Shift is memory-safe for every accepted argument", "statement": "For every gray-scale image, region, output image and pair of shifts, Shift throws or returns having changed only the output region; it reads nothing outside the input image.", "quantifier": "for all images, regions and shifts of type double, NaN included", "why_tests_cant": "reads one row past the buffer go unnoticed in a test", "anchors": ["src/image_function.cpp:Shift"]}
{"id": "C113", "title": "Shift moves the image by the given number of pixels with linear interpolation", "statement": "Each output pixel is, to within 27/50, the bilinear interpolation of the input at its position minus the shift; it is black where the four pixels around that position are not all inside the image.", "quantifier": "for all accepted regions and shifts, whole and fractional, in both directions", "why_tests_cant": "tests compare a few shifts of constant images", "anchors": ["src/image_function.cpp:Shift"]}
{"id": "C114", "title": "Rotate is memory-safe for every accepted argument", "statement": "For every gray-scale image, region, centres and angle, Rotate throws or returns having changed only the output region.", "quantifier": "for all images, regions, centres of type double and angles", "why_tests_cant": "conversion of large positions is undefined only outside the range of uint32_t", "anchors": ["src/image_function.cpp:Rotate"]}
{"id": "C115", "title": "Rotate samples the input at the rotated position with linear interpolation", "statement": "For centres up to 2^28 and regions with width + height up to 2^30: each output pixel is the bilinear interpolation, rounded, of the input at a point within (i + j + 1) / 2^21 of the exactly rotated position; it is black exactly where the four pixels around that point are not all inside the region.", "quantifier": "for all images, regions, centres and angles", "why_tests_cant": "accumulated rounding of the running position over unbounded sizes", "anchors": ["src/image_function.cpp:Rotate"]}
{"id": "C116", "title": "Rotation by 0 around corresponding centres returns the region", "statement": "With cosine 1 and sine 0 and centres that differ by the start of the region, Rotate copies the region.", "quantifier": "for all images, regions and centres", "why_tests_cant": "tests do not look at the last row and column", "anchors": ["src/image_function.cpp:Rotate"]}
{"id": "C117", "title": "A line object measures the straight line it was made from", "statement": "For a line made from two points the library tells apart, or from a point and an angle: projection gives the nearest point of the line, distance the distance to it (zero exactly for points of the line), opposite the mirror image (mirroring twice is the identity); exact arithmetic.", "quantifier": "for all points and angles", "why_tests_cant": "universal over the plane; tests use random samples with a tolerance", "anchors": ["src/math/math_base.h:LineBase2D"]}
{"id": "C118", "title": "Two different points make the line through them, and every line object is a line", "statement": "As C117 for any two different points; also for a default-constructed line and the best fit of fewer than two points, for some straight line.", "quantifier": "for all points", "why_tests_cant": "needs points closer than the tolerance, or a line without points", "anchors": ["src/math/math_base.h:LineBase2D"]}
{"id": "C119", "title": "intersection finds the common point of two lines", "statement": "intersection gives a point if and only if the two lines have exactly one point in common, and then it is that point; isParallel and isIntersect agree with it; exact arithmetic.", "quantifier": "for all lines", "why_tests_cant": "needs lines at a tiny angle", "anchors": ["src/math/math_base.h:intersection"]}
{"id": "C120", "title": "The best fitting line has the smallest sum of squared distances", "statement": "bestFittingLine of two or more points passes through their centre, and no straight line has a smaller sum of squared distances; points on a common straight line are fitted exactly; exact arithmetic.", "quantifier": "for all lists of points", "why_tests_cant": "optimality is a statement about all lines", "anchors": ["src/math/math_base.h:bestFittingLine"]}
{"id": "C121", "title": "Point comparison: == is an equivalence relation and != its negation", "statement": "For two- and three-dimensional points == is reflexive, symmetric and transitive, and p != q holds exactly when p == q does not; numbers with integer values compare exactly, numbers half a tolerance apart are equal and numbers a tolerance apart are not.", "quantifier": "for all points of float and double", "why_tests_cant": "needs three points at critical distances, and points that differ in z only", "anchors": ["src/math/math_base.h:PointBase3D", "src/math/math_base.cpp:isEqual"]}
{"id": "C122", "title": "Moving a line moves its points", "statement": "line + offset and line += offset both measure, in the sense of C117, the line moved by the offset; exact arithmetic with an exact atan2.", "quantifier": "for all lines made from two points or a point and an angle, and all offsets", "why_tests_cant": "universal over the plane", "anchors": ["src/math/math_base.h:LineBase2D"]}
{"id": "C123", "title": "Degrees and radians convert accurately in double", "statement": "toRadians and toDegrees of a double x that is zero or has magnitude 2^-900 to 2^900 are within 5 * 2^-53 (relative) of x pi / 180 and x 180 / pi, and there and back gives x within 5 * 2^-53 (relative), for any double pi within 2^-51 of the number.", "quantifier": "for all doubles in the range", "why_tests_cant": "universal over doubles, exact error analysis", "anchors": ["src/math/math_base.cpp:toRadians", "src/math/math_base.cpp:toDegrees"]}
{"id": "C124", "title": "A CUDA launch gives each pixel exactly one thread", "statement": "For every device with positive limits and fewer than 2^30 threads per block, the one- and two-dimensional grids chosen for a launch stay within the limits of the device, and each index below the requested sizes belongs to exactly one thread; or the request is refused, which does not happen when the sizes are within the limits.", "quantifier": "for all devices and all sizes below 2^32", "why_tests_cant": "depends on the device limits and on 32-bit wrap-around", "anchors": ["src/cuda/cuda_helper.cu:getKernelParameters", "src/cuda/cuda_helper.cuh:launchKernel2D"]}
{"id": "C125", "title": "CUDA pixel functions give the specified image under every interleaving of the device threads", "statement": "AbsoluteDifference, bitwise functions, Maximum, Minimum, Subtract, Invert, Copy, Threshold, LookupTable, Fill, Flip, ExtractChannel, ConvertToGrayScale and ConvertToRgb of Image_Function_Cuda write exactly the specified values into the region and nothing else, in place where the function allows it, whatever the order in which the device threads run.", "quantifier": "for all devices, images, regions and interleavings", "why_tests_cant": "interleavings of device threads cannot be enumerated by tests", "anchors": ["src/cuda/image_function_cuda.cu"]}
{"id": "C126", "title": "CUDA histogram, projection profile and comparison are complete when they are returned", "statement": "Histogram, ProjectionProfile and IsEqual of Image_Function_Cuda return the counts, sums and the comparison of all pixels of the region, whatever the order in which the device threads run and whatever the number of streams set for the device.", "quantifier": "for all devices, images, regions and interleavings", "why_tests_cant": "needs a device whose kernel has not finished at the time of the copy", "anchors": ["src/cuda/image_function_cuda.cu:Histogram", "src/cuda/image_function_cuda.cu:ProjectionProfile", "src/cuda/image_function_cuda.cu:IsEqual"]}
{"id": "C127", "title": "CUDA SetPixel sets the given pixels and nothing else", "statement": "SetPixel of Image_Function_Cuda changes the given pixel, or the given pixels, and nothing else, for every image it accepts; a point outside is refused before anything is written.", "quantifier": "for all images, points and lists of points", "why_tests_cant": "needs a colour image, and all orders of the threads", "anchors": ["src/cuda/image_function_cuda.cu:SetPixel"]}
{"id": "C128", "title": "Copies between host and device keep every pixel", "statement": "ConvertToCuda and ConvertFromCuda copy every pixel for all images of equal size and colour count, whatever their alignments.", "quantifier": "for all pairs of images", "why_tests_cant": "tests only use packed device images", "anchors": ["src/cuda/image_function_cuda.cu:ConvertToCuda", "src/cuda/image_function_cuda.cu:ConvertFromCuda"]}
{"id": "C129", "title": "setThreadsPerBlock keeps the number of threads usable", "statement": "After CudaDevice::setThreadsPerBlock the number of threads per block is positive and at most the limit of the device; zero and numbers that are not multiples of 32 are refused.", "quantifier": "for all uint32_t arguments", "why_tests_cant": "needs an argument of 2^31 or more", "anchors": ["src/cuda/cuda_device.cu:setThreadsPerBlock", "src/cuda/cuda_helper.cu:get2DThreadsPerBlock"]}
{"id": "C130", "title": "Three-dimensional CUDA grids stay within the limits of the device", "statement": "The block chosen for a three-dimensional launch has at most the number of threads the device allows, and the grid covers every index exactly once in each direction.", "quantifier": "for all devices and sizes", "why_tests_cant": "needs devices with unusual block limits", "anchors": ["src/cuda/cuda_helper.cu:getKernelParameters"]}
{"id": "C131", "title": "The CUDA functions agree with the processor functions", "statement": "For all arguments accepted by the processor version, the CUDA function of the same name leaves the same memory contents.", "quantifier": "for all devices, images, regions and interleavings", "why_tests_cant": "universal over arguments and interleavings", "anchors": ["src/cuda/image_function_cuda.cu", "src/image_function.cpp"]}
{"id": "C132", "title": "An OpenCL launch gives each pixel exactly one work-item", "statement": "For every positive work-group size and all sizes from 1 to 2^32 - 1, the one-, two- and three-dimensional ranges chosen for a launch have positive local sizes that divide the global sizes and a product within the work-group size, each index below the requested sizes belongs to exactly one work-item, and a device that allows the whole group along one direction accepts the range.", "quantifier": "for all devices and all sizes below 2^32", "why_tests_cant": "depends on the device limits and on wrap-around", "anchors": ["src/opencl/opencl_helper.cpp:getKernelParameters", "src/opencl/opencl_helper.cpp:launchKernel2D"]}
{"id": "C133", "title": "OpenCL functions of two images, Invert, IsEqual, ProjectionProfile and Fill of an image give the specified result under every interleaving", "statement": "AbsoluteDifference, bitwise functions, Maximum, Minimum, Subtract, Invert, IsEqual, ProjectionProfile and the Fill of a whole image of Image_Function_OpenCL give exactly the specified values in the region and nothing else, in place where the function allows it, whatever the order in which the work-items run.", "quantifier": "for all devices, images, regions and interleavings", "why_tests_cant": "interleavings of work-items cannot be enumerated by tests", "anchors": ["src/opencl/image_function_opencl.cpp"]}
{"id": "C134", "title": "OpenCL functions of a region work on that region", "statement": "Threshold with one and two bounds, Fill, Histogram, LookupTable, ConvertToGrayScale and ConvertToRgb of Image_Function_OpenCL read (write) the region that starts at column startX and row startY.", "quantifier": "for all devices, images, regions and interleavings", "why_tests_cant": "the OpenCL tests use whole images only", "anchors": ["src/opencl/image_function_opencl.cpp"]}
{"id": "C135", "title": "OpenCL Copy copies the region", "statement": "Copy of Image_Function_OpenCL writes the pixels of the region of the input into the region of the output and nothing else.", "quantifier": "for all devices, images, regions and interleavings", "why_tests_cant": "the tests never call it", "anchors": ["src/opencl/image_function_opencl.cpp:Copy"]}
{"id": "C136", "title": "OpenCL ExtractChannel extracts the channel", "statement": "ExtractChannel of Image_Function_OpenCL writes the given channel of the region of the input into the region of the output and nothing else.", "quantifier": "for all devices, images, channels, regions and interleavings", "why_tests_cant": "the tests never call it", "anchors": ["src/opencl/image_function_opencl.cpp:ExtractChannel"]}
{"id": "C137", "title": "OpenCL Flip mirrors the region", "statement": "Flip of Image_Function_OpenCL writes the mirrored region of the input into the region of the output and nothing else.", "quantifier": "for all devices, images, regions and interleavings", "why_tests_cant": "the tests never call it", "anchors": ["src/opencl/image_function_opencl.cpp:Flip"]}
{"id": "C138", "title": "OpenCL Normalize and SetPixel with lists run for valid arguments", "statement": "Normalize and SetPixel with lists of coordinates of Image_Function_OpenCL return for valid arguments when memory can be allocated.", "quantifier": "for all devices and valid arguments", "why_tests_cant": "the tests never call them", "anchors": ["src/opencl/image_function_opencl.cpp:Normalize", "src/opencl/image_function_opencl.cpp:SetPixel"]}
{"id": "C139", "title": "OpenCL SetPixel sets the given pixel and nothing else", "statement": "SetPixel of Image_Function_OpenCL with one point changes the pixel at that point and nothing else; a point outside the image is refused before anything is written.", "quantifier": "for all devices, gray-scale images and points", "why_tests_cant": "universal over points", "anchors": ["src/opencl/image_function_opencl.cpp:SetPixel"]}
{"id": "C140", "title": "Copies between host and OpenCL device keep every pixel", "statement": "ConvertToOpenCL and ConvertFromOpenCL copy every pixel for all images of equal size and colour count, whatever their alignments.", "quantifier": "for all pairs of images", "why_tests_cant": "tests only use packed images", "anchors": ["src/opencl/image_function_opencl.cpp:ConvertToOpenCL", "src/opencl/image_function_opencl.cpp:ConvertFromOpenCL"]}
{"id": "C141", "title": "OpenCL conversion to the same colour count copies the region", "statement": "ConvertToGrayScale of a gray-scale image and ConvertToRgb of an RGB image of Image_Function_OpenCL copy the region and leave the rest of the output as it was.", "quantifier": "for all images and regions", "why_tests_cant": "the shortcut is taken for one colour count only and tests use whole images", "anchors": ["src/opencl/image_function_opencl.cpp:ConvertToGrayScale", "src/opencl/image_function_opencl.cpp:ConvertToRgb"]}
{"id": "C142", "title": "Device images can be copied and used after a move", "statement": "The copy constructor of ImageCuda, ImageCudaPinned and ImageOpenCL gives an independent image of the same sizes and pixels, and an image that has been moved from can be assigned another image of its kind.", "quantifier": "for all reachable states and images", "why_tests_cant": "no test copy-constructs a device image or assigns to a moved-from one", "anchors": ["src/cuda/image_buffer_cuda.cuh", "src/cuda/image_buffer_cuda_pinned.cuh", "src/opencl/image_buffer_opencl.h"]}
{"id": "C143", "title": "An array on a device holds what was assigned to it", "statement": "After an assignment of a vector to an Array that returns, get() gives that vector, whatever happened to the array before; one array can be assigned to another and gives the same values.", "quantifier": "for all histories of an array, all allocation failures and all vectors", "why_tests_cant": "needs failed allocations and empty arrays", "anchors": ["src/cuda/cuda_types.cuh:Array", "src/opencl/opencl_types.h:Array"]}
{"id": "C144", "title": "Streams and queues of a device are destroyed exactly once", "statement": "For every history of setStreamCount (setQueueCount) and setCurrentStreamId (setCurrentQueueId), every stream (queue) made for a device is destroyed exactly once when the device is, none of those held is destroyed before, the requested number is held (at most 255 queues) and those within the smaller of the two counts are kept.", "quantifier": "for all histories of counts and current ids", "why_tests_cant": "histories are unbounded", "anchors": ["src/cuda/cuda_device.cu:setStreamCount", "src/opencl/opencl_device.cpp:setQueueCount"]}
{"id": "C145", "title": "The current queue of a device exists, and its streams and queues belong to it", "statement": "For every history of counts and current ids, queue() gives a queue of that device, and every stream a CUDA device holds is a stream of that device, whichever device is active.", "quantifier": "for all histories of counts and current ids", "why_tests_cant": "tests never reduce the count below the current id", "anchors": ["src/cuda/cuda_device.cu:stream", "src/opencl/opencl_device.h:queue"]}
{"id": "C146", "title": "The device managers give exactly the devices that are open", "statement": "For every history of initializations, closings and choices of the active device, device( id ) gives the device with that id when it has been initialized and not closed since and throws otherwise; each open device is held once.", "quantifier": "for all histories and ids", "why_tests_cant": "histories are unbounded and ids out of range are not tested", "anchors": ["src/cuda/cuda_device.cu:CudaDeviceManager", "src/opencl/opencl_device.cpp:OpenCLDeviceManager"]}
{"id": "C147", "title": "Closing a device keeps the active one", "statement": "Closing a device other than the active one leaves the active device as it was.", "quantifier": "for all histories and pairs of devices", "why_tests_cant": "needs two devices", "anchors": ["src/cuda/cuda_device.cu:closeDevice", "src/opencl/opencl_device.cpp:closeDevice"]}
{"id": "C148", "title": "The OpenCL manager supports the devices that can be used", "statement": "After a change of the device support the supported devices are those, of all platforms that answer, for which a context can be made.", "quantifier": "for all platforms and devices", "why_tests_cant": "depends on the devices of the system", "anchors": ["src/opencl/opencl_device.cpp:resetSupportedDevice"]}
{"id": "C149", "title": "OpenCL functions work on every open device", "statement": "Whenever a device is open, a function of Image_Function_OpenCL can run on it, whatever devices were opened and closed before.", "quantifier": "for all histories of opening, closing and running", "why_tests_cant": "tests never run a function, close the device and open it again", "anchors": ["src/opencl/image_function_opencl.cpp:GetProgram", "src/opencl/opencl_device.cpp:getMemsetKernel"]}
{"id": "C150", "title": "Sub-buffers of OpenCL memory are aligned and disjoint", "statement": "In every history of reserve, allocate and free on any number of OpenCL devices, with any device active at each call and exceptions caught, the sub-buffers the program holds are inside the memory reserved on their device, at offsets that are multiples of the alignment the device requires, and pairwise disjoint; an allocation throws only when the OpenCL library refuses memory and a free never throws.", "quantifier": "for all histories, devices, alignments and handles", "why_tests_cant": "histories are unbounded; tests run on one device with its alignment", "anchors": ["src/opencl/opencl_memory.h:allocate", "src/opencl/opencl_memory.h:free", "src/memory/memory_allocator.h"]}
{"id": "C151", "title": "Freed OpenCL memory is available again", "statement": "When the program holds no sub-buffer of the memory reserved on a device, the memory of that device can be reserved anew with any size up to the available one.", "quantifier": "for all histories with any active devices", "why_tests_cant": "needs two devices and a free while another device is active", "anchors": ["src/opencl/opencl_memory.h:free", "src/opencl/opencl_memory.h:_allocate", "src/opencl/image_buffer_opencl.h"]}
{"id": "C152", "title": "CUDA memory the program holds stays valid", "statement": "In every history of reserve, allocate and free on any number of CUDA devices, with any device active at each call, every range the program holds lies in memory that has not been given back to the driver, does not overlap another, and can be freed.", "quantifier": "for all histories and answers of cudaMalloc", "why_tests_cant": "needs two devices and a free while another device is active", "anchors": ["src/cuda/cuda_memory.cuh:allocate", "src/cuda/cuda_memory.cuh:free", "src/cuda/image_buffer_cuda.cuh", "src/cuda/cuda_types.cuh"]}
{"id": "C153", "title": "Memory from the CUDA allocator is aligned for its element type", "statement": "allocate<T>() of the CUDA allocator returns an address that is a multiple of sizeof(T), for sizes that are powers of two up to 32, when cudaMalloc returns multiples of 256.", "quantifier": "for all histories of allocations of different types", "why_tests_cant": "needs particular orders of frees of small chunks", "anchors": ["src/memory/memory_allocator.h:_merge", "src/cuda/cuda_memory.cuh:allocate"]}
{"id": "C154", "title": "A failed reserve on a device leaves its memory usable", "statement": "After a reserve on a CUDA or OpenCL device that throws, for whatever reason, the program holds the memory it held, can free it, and can allocate (CUDA: memory is freed while its device is active).", "quantifier": "for all histories and all reasons of failure", "why_tests_cant": "the driver has to refuse memory", "anchors": ["src/cuda/cuda_memory.cuh:_allocate", "src/opencl/opencl_memory.h:_allocate", "src/memory/memory_allocator.h:reserve"]}
{"id": "C155", "title": "Saving and loading a PNG file preserves every pixel", "statement": "When libpng is lossless, File_Operation::Save of any region of an image under a name that ends with .png, followed by File_Operation::Load, gives an image of the size of the region with the gray value or the blue, green and red values of every pixel (an alpha channel is dropped).", "quantifier": "for all images, regions, memories and contents of the target image", "why_tests_cant": "the number of images and regions is unbounded; tests save small whole images", "anchors": ["src/file/png_image.cpp:Save", "src/file/png_image.cpp:Load", "src/file/file_image.cpp"]}
{"id": "C156", "title": "A JPEG file is made of the requested region", "statement": "File_Operation::Save of a region of a gray or three-channel image under a name that ends with .jpg or .jpeg passes exactly the samples of the region, row by row, with the size and the quality set, to libjpeg, and writes no other file.", "quantifier": "for all images, regions and qualities", "why_tests_cant": "regions away from the corner are rarely tested, and lossy coding hides what was passed", "anchors": ["src/file/jpeg_image.cpp:Save", "src/file/file_image.cpp:Save"]}
{"id": "C157", "title": "Reading and writing files never ends the process", "statement": "Load and Save either return or throw an exception; they never end the process, whatever the file contains.", "quantifier": "for all files, names, images, regions and failures of the system", "why_tests_cant": "needs every malformed file", "anchors": ["src/file/png_image.cpp", "src/file/jpeg_image.cpp", "src/file/file_image.cpp", "src/file/bmp_image.cpp"]}
{"id": "C158", "title": "A PNG file is shown as it is", "statement": "Load of a file that libpng can read gives, for every colour type, bit depth and transparency the format allows, an image of the size in the file, gray for gray types and blue, green, red otherwise, with the samples of every pixel; no other image, file or setting changes and the file is closed.", "quantifier": "for all PNG pictures and all states of the images", "why_tests_cant": "six transformations of libpng combine over fifteen combinations of type and depth, with and without transparency", "anchors": ["src/file/png_image.cpp:Load", "src/file/file_image.cpp:Load"]}
{"id": "C159", "title": "A JPEG file is shown as it is", "statement": "Load of a file that libjpeg can read gives an image of the size and the number of components in the file with every sample, whatever the image was before; no other image, file or setting changes and the file is closed.", "quantifier": "for all JPEG pictures up to 65500 x 65500 and all states of the images", "why_tests_cant": "tests do not load pictures of more than 4 GB", "anchors": ["src/file/jpeg_image.cpp:Load", "src/image_buffer.h:resize"]}
{"id": "C160", "title": "The format of a file does not change the picture", "statement": "The same picture loaded from a PNG file and from a JPEG file gives the same image.", "quantifier": "for all pictures that both libraries read", "why_tests_cant": "needs a comparison of the channels of two formats", "anchors": ["src/file/png_image.cpp:Load", "src/file/jpeg_image.cpp:Load"]}
{"id": "C161", "title": "The end of the name chooses the format, the same for Load and Save", "statement": "A name that ends with .jpg or .jpeg means JPEG and one that ends with .png means PNG, when the library is built in; every other name means bitmap; Load and Save choose alike, and a bitmap saved under any other name is loaded again with the same pixels.", "quantifier": "for all names and builds", "why_tests_cant": "names are unbounded: short names, names with several dots", "anchors": ["src/file/file_image.cpp:isSameFileExtension", "src/file/file_image.cpp:Load", "src/file/file_image.cpp:Save"]}
{"id": "C162", "title": "A failed Save leaves the files as they were", "statement": "When Save throws, the file has the contents it had and no file stays open; Save succeeds exactly for the regions inside the image when the file can be opened.", "quantifier": "for all images, regions, formats and failures", "why_tests_cant": "failures of fopen and of the libraries do not occur in tests", "anchors": ["src/file/png_image.cpp:Save", "src/file/jpeg_image.cpp:Save", "src/file/bmp_image.cpp:Save"]}
{"id": "C163", "title": "The JPEG quality is the last one accepted", "statement": "SetImageQuality accepts exactly 1 to 100 and throws otherwise without a change; GetImageQuality returns the last accepted value of any history of calls.", "quantifier": "for all histories of calls", "why_tests_cant": "histories are unbounded", "anchors": ["src/file/jpeg_image.cpp:SetImageQuality", "src/file/jpeg_image.cpp:GetImageQuality"]}
{"id": "C164", "title": "CUDA functions refuse invalid arguments before they touch an image", "statement": "Every CUDA image function called with an empty image, a region outside an image, numbers of channels that do not fit, a table that does not have 256 values, a channel the image does not have, pixels outside the image or lists of different lengths throws an exception, and every element of the memory is as before.", "quantifier": "for all devices, schedules, memories, images, regions and results of the allocator", "why_tests_cant": "the invalid arguments are unbounded; tests use a few sizes", "anchors": ["src/cuda/image_function_cuda.cu", "src/parameter_validation.h"]}
{"id": "C165", "title": "OpenCL functions refuse invalid arguments before they touch an image", "statement": "Every OpenCL image function called with an empty image, a region outside an image, numbers of channels that do not fit, a table that does not have 256 values, a channel the image does not have, pixels outside the image or lists that are empty or of different lengths throws an exception, and every element of the memory is as before.", "quantifier": "for all devices, schedules, memories, images, regions and results of the allocator", "why_tests_cant": "the invalid arguments are unbounded; tests use a few sizes", "anchors": ["src/opencl/image_function_opencl.cpp", "src/parameter_validation.h"]}
{"id": "C166", "title": "Normalize with several threads gives the result of Normalize with one", "statement": "Function_Pool::Normalize on a region of an image, into a region that does not overlap it, never stops with an exception, ends under every schedule that runs long enough, and leaves the memory that Image_Function::Normalize leaves.", "quantifier": "for all numbers of threads, schedules, memories, images and regions", "why_tests_cant": "schedules, pixel values and sizes are unbounded; the two functions find the range of values in different ways", "anchors": ["src/function_pool.cpp", "src/image_function.cpp"]}
{"id": "C167", "title": "GammaCorrection with several threads gives the result of GammaCorrection with one", "statement": "Function_Pool::GammaCorrection with a factor and an exponent that are not negative ends under every schedule that runs long enough and leaves the memory that Image_Function::GammaCorrection leaves; with a negative factor or exponent or an invalid region both throw an exception and leave the memory as it was.", "quantifier": "for all numbers of threads, schedules, memories, images, regions, factors, exponents and functions pow with values from 0 to 1", "why_tests_cant": "schedules, factors and sizes are unbounded", "anchors": ["src/function_pool.cpp", "src/image_function.cpp", "src/image_function_helper.cpp"]}
{"id": "C168", "title": "GammaCorrection on the devices gives the result of GammaCorrection on the processor", "statement": "GammaCorrection of CUDA and of OpenCL, called with valid regions and a factor and an exponent that are not negative, leaves the memory that Image_Function::GammaCorrection leaves if the device has room for the call; with a negative factor or exponent or an invalid region it throws an exception and leaves the memory as it was.", "quantifier": "for all devices, schedules, memories, images, regions, factors and exponents", "why_tests_cant": "schedules, factors and sizes are unbounded; the tests on devices use gray images and few sizes", "anchors": ["src/cuda/image_function_cuda.cu", "src/opencl/image_function_opencl.cpp", "src/image_function_helper.cpp"]}
{"id": "C169", "title": "GetGaussianKernel gives the scaled bell in the middle of the picture", "statement": "GetGaussianKernel refuses sizes below 3, a kernel of half size 0, one that does not fit into the picture and a negative sigma, leaving the vector as it was; otherwise the vector has width * height numbers: those within the half size of the centre are the values of the bell divided by their sum, the others are 0. The kernel is symmetric, its values are numbers, and in exact arithmetic they sum to 1.", "quantifier": "for all sizes, half sizes, sigmas, number types and exponential functions", "why_tests_cant": "sizes are unbounded, a wrapped test is only seen with half sizes above 2^31; no test of the library calls the function", "anchors": ["src/filtering.cpp:353-396"]}
{"id": "C170", "title": "ComplexData objects are copied, moved and destroyed without sharing or losing memory", "statement": "A copy of a ComplexData object and the target of an assignment have the sizes and the elements of the source, and every other object, including the source, keeps its own; moving exchanges the contents. In every sequence of constructions, resizes, writes, copies, moves and destructions of existing objects nothing undefined happens, each allocated block belongs to exactly one object, and no block is left when all objects are destroyed.", "quantifier": "for all histories, objects, sizes, element values and blocks the allocator may return", "why_tests_cant": "histories are unbounded; sharing shows only when one of two objects is written or destroyed", "anchors": ["src/math/fft_base.h", "src/fft.cpp"]}
{"id": "C171", "title": "DisplayHistogram draws columns in proportion to the counts", "statement": "DisplayHistogram on a vector that is not constant shows an image as wide as the vector and 100 rows high whose column x is white in the lowest (v - minimum) * 100 / (maximum - minimum) rows, where v is the value at x, and black above; nothing but the new image is written. A vector that is empty or constant leaves the window alone.", "quantifier": "for all vectors of 32-bit counts whose image has less than 2^32 pixels", "why_tests_cant": "lengths and counts are unbounded; the library has no test of the function", "anchors": ["src/tool/ui/tool_ui.h:26-54"]}
{"id": "C172", "title": "ComplexData::set on a CUDA device takes the pixels of the image", "statement": "After set with a gray-scale image of the device, real part (x, y) of the data is pixel (x, y) of the image and the imaginary part 0, under every interleaving of the threads; the array belongs to the object and nothing else changes. An empty or coloured image is refused. set with an array of floats takes element y * width + x, and refuses an array of another size.", "quantifier": "for all images, devices and interleavings", "why_tests_cant": "unit tests of CUDA run on one device with images without padding", "anchors": ["src/cuda/cuda_fft.cu:30-52", "src/cuda/cuda_fft.cu:115-138"]}
{"id": "C173", "title": "ComplexData::get on a CUDA device exchanges the halves of rows and columns", "statement": "The new image has at ((x + w/2) mod w, (y + h/2) mod h) the scaled real part (x, y), under every interleaving of the threads; nothing else changes.", "quantifier": "for all sizes, contents, devices and interleavings", "why_tests_cant": "a race between threads shows up on some runs only; tests use even sizes", "anchors": ["src/cuda/cuda_fft.cu:54-70", "src/cuda/cuda_fft.cu:140-153"]}
{"id": "C174", "title": "complexMultiplication on a CUDA device multiplies element by element", "statement": "When the call is accepted, every element of out becomes the product of the elements of in1 and in2 as they were before the call, also when out is in1, whatever the size of the executor; nothing else changes and nothing outside the arrays is accessed. Data of different sizes and empty data are refused.", "quantifier": "for all sizes, contents, arithmetic of the device and interleavings", "why_tests_cant": "needs executors of other sizes and arrays in place, on a device", "anchors": ["src/cuda/cuda_fft.cu:72-87", "src/cuda/cuda_fft.cu:210-217", "src/cuda/filtering_cuda.cu:57"]}
{"id": "C175", "title": "Rotate on a CUDA device is memory-safe and does not depend on the schedule", "statement": "For gray-scale images of equal size that do not overlap, whatever the centres, the angle and the rounding of the float operations (also for positions far outside the image), every interleaving of the threads ends with the same picture in out, reads and writes only inside the images and changes nothing else. Empty, coloured or differently sized images are refused.", "quantifier": "for all images, centres, angles, float arithmetics, devices and interleavings", "why_tests_cant": "races and accesses outside the image show up only on some devices and angles", "anchors": ["src/cuda/image_function_cuda.cu:299-345", "src/cuda/image_function_cuda.cu:1091-1118"]}
{"id": "C176", "title": "Rotate on a CUDA device gives the bilinear value at the rotated position", "statement": "In exact arithmetic, pixel (x, y) of out is the rounded bilinear value of the input at the position got by turning (x, y) around the centre of the output and moving it to the centre of the input, and 0 when one of the four pixels around that position is not in the image.", "quantifier": "for all images, centres and angles, all interleavings", "why_tests_cant": "no test calls Rotate; a value depends on the angle, the centres and four pixels", "anchors": ["src/cuda/image_function_cuda.cu:299-345", "src/cuda/image_function_cuda.cu:1091-1118"]}
{"id": "C177", "title": "kiss_fft_next_fast_size gives the next size with factors 2, 3 and 5", "statement": "For every int n, kiss_fft_next_fast_size( n ) returns, and returns the least number not less than n that is a product of powers of 2, 3 and 5.", "quantifier": "for all int n", "why_tests_cant": "the interesting arguments are near the ends of the range of int; 0 never returns", "anchors": ["src/thirdparty/kissfft/kiss_fft.c:394-406"]}
{"id": "C178", "title": "The limits of a blob parameter are the last ones set", "statement": "After any sequence of set, setMinimum, setMaximum and reset, a blob measurement passes the filter exactly when it is not below the last minimum nor above the last maximum set since the last reset; verify throws exactly when both are set and the minimum exceeds the maximum; after reset the parameter is as a new one.", "quantifier": "for all sequences of calls, all values", "why_tests_cant": "tests use one or two calls", "anchors": ["src/blob_detection.h:28-72"]}
{"id": "C179", "title": "The measurements of a blob do not depend on the order of the calls", "statement": "After any sequence of calls of the getters of a found blob, a getter that is not const returns the measurement of the points, and a const one returns it if a non-const call computed it before (that of the circularity computes the centre, too); otherwise it returns 0 for area and centre and an indeterminate number for the rest.", "quantifier": "for all blobs with points and all sequences of getter calls", "why_tests_cant": "cached values are right on the first call; only sequences of calls show a wrong one", "anchors": ["src/blob_detection.h:145-318", "src/blob_detection.cpp:78-187"]}
{"id": "C180", "title": "area() of a blob is the smallest rectangle around it", "statement": "For every blob of find, all points lie in the rectangle of area() and each side has a point; width() and height() are its dimensions.", "quantifier": "for all images, thresholds and regions with (w + 2) * (h + 1) < 2^32", "why_tests_cant": "tests use rectangular blobs", "anchors": ["src/blob_detection.cpp:78-88", "src/blob_detection.cpp:160-167", "src/blob_detection.cpp:180-187"]}
{"id": "C181", "title": "isSolid() tells whether a blob has a hole", "statement": "For every blob of find, isSolid() is true exactly when no dark pixel next to the blob is enclosed by bright pixels.", "quantifier": "for all images, regions and thresholds", "why_tests_cant": "no test calls isSolid", "anchors": ["src/blob_detection.h:298-302", "src/blob_detection.cpp:189-425"]}
{"id": "C182", "title": "A window of X11 shows every pixel of the image", "statement": "For every gray-scale or RGB image, the picture made for a new X11 window has 4 bytes per pixel in row order: the gray value three times or the three channels, then 0; nothing else in memory changes. An image with 4 channels is refused with an exception.", "quantifier": "for all images and memories", "why_tests_cant": "no test opens a window; the size wraps for large images", "anchors": ["src/ui/x11/x11_ui.cpp:84-128"]}
{"id": "C183", "title": "setImage of an X11 window replaces the image shown", "statement": "After any sequence of setImage, what an X11 window shows is the picture of the image set last.", "quantifier": "for all sequences of setImage", "why_tests_cant": "no test opens a window", "anchors": ["src/ui/ui.h:32-54", "src/ui/ui.cpp:23-41", "src/ui/x11/x11_ui.cpp:26-60"]}
{"id": "C184", "title": "setImage on Windows keeps the image upside down", "statement": "setImage of a window on Windows stores the image upside down in the bitmap, pixel by pixel, with rows of 4 byte multiples; an image larger than the screen is scaled to the smaller size, pixel (x,y) taken from column x * width / newWidth and row y * height / newHeight. Nothing else in memory changes.", "quantifier": "for all images, sizes and memories", "why_tests_cant": "the product x * width wraps for wide images only; no test opens a window", "anchors": ["src/ui/win/win_ui.cpp:220-292"]}
{"id": "C185", "title": "length() of a blob is the largest distance of two of its points", "statement": "For every blob of find, length() is the square root of the largest squared distance of two points of the blob, though only the contour is searched.", "quantifier": "for all images, thresholds, limits and regions with (w + 2) * (h + 1) < 2^32", "why_tests_cant": "int overflows for distances above 46340 only; the farthest points of a blob of any shape have to be on its contour", "anchors": ["src/blob_detection.cpp:39-73", "src/blob_detection.cpp:169-178", "src/blob_detection.cpp:348-423"]}
{"id": "C186", "title": "The contour of a blob is its outer edge", "statement": "For every blob of find, the contour points are exactly, and once each, the points of the blob with a neighbour from which a path of dark pixels leads out of the region.", "quantifier": "for all images, thresholds, limits and regions with (w + 2) * (h + 1) < 2^32", "why_tests_cant": "tests use solid rectangles and circles", "anchors": ["src/blob_detection.cpp:233-423", "src/blob_detection.h:298-302"]}
