{"id": "C01", "title": "binvox Write/Read round trip", "statement": "If every white voxel of a model lies inside its declared dimensions and there is at least one, then (*BinVOX).Write of the whole model followed by Read of the whole file succeeds and returns a model with the same NX,NY,NZ, TX,TY,TZ, Scale and exactly the same set of white voxels.", "quantifier": "all dimensions, all finite translations/scales, all non-empty voxel sets inside the dimensions (any run lengths, any pattern)", "why_tests_cant": "the space of voxel sets and run-length patterns is unbounded; the repository has no round-trip test at all", "anchors": ["binvox/write.go: Write, write, encode", "binvox/read.go: Read, read"]}
{"id": "C02", "title": "binvox sub-region Write writes exactly the window", "statement": "Write(file, sx,sy,sz, nx,ny,nz) of a non-empty model writes a file that reads back as dimensions (nx,ny,nz) (0 meaning the model's own dimension) whose voxels are exactly the model's voxels in [s,s+n) on each axis, re-indexed so that the window's corner is (0,0,0).", "quantifier": "all models, all windows (also windows partly or wholly outside the model)", "why_tests_cant": "unbounded family of windows and voxel sets", "anchors": ["binvox/write.go: write, encode"]}
{"id": "C03", "title": "world placement of a sub-region Write", "statement": "The file written by a sub-region Write keeps the model's translation and scale. So a voxel read back keeps its place in world space (TX+x/VoxelsPerMM, ...) exactly if on each axis (index+start)*Dim(file) = index*Dim(model); with an equal largest dimension it is displaced by exactly the window's start, and there are models and windows for which it moves.", "quantifier": "all models and windows", "why_tests_cant": "needs an exact statement over all windows; a handful of examples with start 0 pass", "anchors": ["binvox/write.go: write", "binvox/binvox.go: VoxelsPerMM"]}
{"id": "C04", "title": "binvox data section is a well-formed, canonical run-length encoding", "statement": "The data section written is a sequence of (value,count) byte pairs with value 0 or 1 and count 1..255, whose counts sum to exactly nx*ny*nz, and two neighbouring records share a value only if the first one has the maximal count 255.", "quantifier": "all models and windows", "why_tests_cant": "run lengths are unbounded: the 255 split and the first/last-run handling must be right for every length", "anchors": ["binvox/write.go: write, encode"]}
{"id": "C05", "title": "Write reports the exact number of white voxels written", "statement": "The number of white voxels the writer reports is the number of voxels of the model inside the written window, and equals the number of voxels a whole-file Read returns.", "quantifier": "all models and windows", "why_tests_cant": "unbounded inputs", "anchors": ["binvox/write.go: write"]}
{"id": "C06", "title": "binvox Read never yields a voxel outside the declared dimensions", "statement": "For every byte sequence and every start/count arguments, Read either returns an error or a model; and if the dimensions it returns are all positive then every voxel it returns lies in [0,NX)x[0,NY)x[0,NZ). When NY or NZ is 0 and NX is not, this fails: voxels can be returned.", "quantifier": "all byte strings, all integer arguments", "why_tests_cant": "a reader must hold on every corrupt or hostile file", "anchors": ["binvox/read.go: read"]}
{"id": "C07", "title": "binvox Read accepts exactly the well-formed files", "statement": "Given a well-formed header with positive dimensions and a valid start, Read succeeds if and only if the data section is a sequence of (value,count) pairs with value 0/1 and non-zero count whose counts sum to at most NX*NY*NZ; in particular odd-length data, zero counts, other values and overruns are rejected.", "quantifier": "all data sections", "why_tests_cant": "infinite set of byte strings; corrupt data of every shape must be rejected", "anchors": ["binvox/read.go: read"]}
{"id": "C08", "title": "binvox Read of a truncated file", "statement": "If a written file is cut at any byte, Read returns either an error or a model with the same header and a subset of the voxels - never a wrong voxel. It does not always return an error: a cut between two records is accepted silently.", "quantifier": "all models, all crash points (byte offsets)", "why_tests_cant": "every crash point of every file", "anchors": ["binvox/write.go: write", "binvox/read.go: read"]}
{"id": "C09", "title": "binvox windowed Read", "statement": "Read(file, sx,sy,sz, nx,ny,nz) returns, un-shifted, exactly the file's voxels whose index on each axis is in the requested window. As documented ('number of voxels to read') the window would be [s,s+n); the code keeps [s,s+n], one extra layer per axis.", "quantifier": "all files, all windows", "why_tests_cant": "off-by-one on the window boundary only shows for voxels on that layer", "anchors": ["binvox/read.go: Read, read"]}
{"id": "C10", "title": "the concurrent binvox writer is schedule independent and always finishes", "statement": "For every interleaving of the encoder goroutine and the writing goroutine, and every channel capacity, the writer terminates without deadlock, the encoder goroutine exits, and the bytes written are the same.", "quantifier": "all schedules, all channel capacities, all models", "why_tests_cant": "tests see one schedule per run", "anchors": ["binvox/write.go: write, encode"]}
{"id": "C11", "title": "Write reports failed writes", "statement": "Write returns nil exactly if creating, the data write (made only for a non-empty model) and closing succeeded; when the header write succeeded too, the file is then complete. A failed header write is never reported, whatever the model, and leaves a file that Read rejects.", "quantifier": "all outcomes of each underlying write call", "why_tests_cant": "fault injection at every call for every model", "anchors": ["binvox/write.go: write"]}
{"id": "C12", "title": "an empty model round trips", "statement": "Writing a model with no white voxels and reading it back gives an empty model with the same translation and scale; its dimensions are replaced by 0,0,0.", "quantifier": "all empty models", "why_tests_cant": "ranges over all dimensions and floats", "anchors": ["binvox/write.go: write", "binvox/read.go: read"]}
{"id": "C13", "title": "voxel store: New/Get/Add/AddColor", "statement": "After New, any sequence of Add (on a white model) or AddColor (on a colour model) makes Get return the last value added at that key and leaves all other keys unchanged; the dimensions, origin and scale stay those given to New; a white voxel takes priority over a colour one; adding through the wrong kind of model panics. A white model so built and written is read back with everything given to New and exactly the voxels added.", "quantifier": "all operation sequences", "why_tests_cant": "histories of any length", "anchors": ["binvox/binvox.go: New, Get, Add, AddColor"]}
{"id": "C14", "title": "model geometry: Dim, VoxelsPerMM, MBB", "statement": "Dim is the maximum of the three dimensions; the bounding box returned by MBB contains the world cell of every in-range voxel and is tight; the largest side of the box equals Scale (Scale>0, in exact arithmetic).", "quantifier": "all dims, translations, scales", "why_tests_cant": "continuous parameter space", "anchors": ["binvox/binvox.go: Dim, VoxelsPerMM, MBB"]}
{"id": "C15", "title": "vshell neighbour bits", "statement": "The neighbour mask has one distinct bit per each of the 26 neighbour offsets and the full mask is their union; the bit recorded between two adjacent keys identifies the offset and is mirrored by the opposite offset.", "quantifier": "all pairs of adjacent integer keys", "why_tests_cant": "infinitely many key pairs; 26 hand-written cases", "anchors": ["vshell/vshell.go: constants", "vshell/merge.go: findNeighbors, diffKeys"]}
{"id": "C16", "title": "building a shell from a binvox", "statement": "vshell.New of a white model yields exactly those voxels that miss at least one of their 26 neighbours, each once, each with the exact mask of neighbours present in the model - for every iteration order of the map. (A model with coloured voxels only gives an empty shell.)", "quantifier": "all voxel sets, all map iteration orders", "why_tests_cant": "Go randomises map order; unbounded voxel sets", "anchors": ["vshell/vshell.go: New", "vshell/merge.go: Add"]}
{"id": "C17", "title": "adding disjoint parts to a shell keeps it between the true shell and the model", "statement": "Adding any sequence of disjoint aligned models to a shell maintains: no duplicate voxels, every voxel of the union's true 26-neighbour shell is present, every voxel present belongs to the union, and the recorded mask never claims a neighbour that is not there.", "quantifier": "all sequences of disjoint aligned models, all iteration orders, all slice growth policies", "why_tests_cant": "history and allocation dependent", "anchors": ["vshell/merge.go: Add, Merge"]}
{"id": "C18", "title": "incremental shell equals the shell of the union", "statement": "Adding a disjoint model to the exact shell of M always gives exactly the voxels of the shell of the union, and new voxels get exact masks; if the slice has room for the added voxels all masks are exact, so the result equals building the shell of the union. Without room, mask updates of old voxels can be lost (the code updates through pointers into a slice that append may have moved), and there are histories in which they are.", "quantifier": "all pairs of disjoint models, all iteration orders, all slice growth policies", "why_tests_cant": "whether an update is lost depends on slice capacity and map order", "anchors": ["vshell/merge.go: Add"]}
{"id": "C19", "title": "duplicate voxels when adding a part to a shell", "statement": "Adding a part disjoint from the shell's model never yields a duplicate voxel. Overlap is not detected: every voxel of the part that is already in the shell and is not enclosed afterwards occurs twice.", "quantifier": "all shells and models", "why_tests_cant": "needs all overlaps", "anchors": ["vshell/merge.go: Add"]}
{"id": "C20", "title": "aligning a part keeps world positions", "statement": "When a part is added to a shell, every old voxel and every new voxel keeps its world position (TX+x/VoxelsPerMM, ...) and indices stay non-negative, for parts whose origin differs by a whole number of voxels with all components of one sign. With components of both signs every old voxel is displaced in the world; a part at a fractional positive offset lands less than one voxel short of its place.", "quantifier": "all origins, dims, resolutions", "why_tests_cant": "continuous parameters; only some sign combinations break", "anchors": ["vshell/merge.go: Add, update"]}
{"id": "C21", "title": "Add rejects bad parts and then leaves the shell unchanged", "statement": "Adding a nil model, or to a non-empty shell a model whose integer voxels-per-mm differs, returns an error and leaves the shell as it was; otherwise Add succeeds. Merge of the models read from the files gives the shell that New makes of the first and Add extends by each other one in order, or the resolution error of the first part that does not fit (no later part being added); it never panics.", "quantifier": "all shells and models, all lists of parts", "why_tests_cant": "must hold in every state", "anchors": ["vshell/merge.go: Merge, Add, update"]}
{"id": "C22", "title": "adding a part keeps the shell's resolution", "statement": "After Add the shell's VoxelsPerMM is what it was before (exact arithmetic), although its dimensions have grown.", "quantifier": "all shells and parts", "why_tests_cant": "continuous parameters", "anchors": ["vshell/merge.go: Add, update"]}
{"id": "C23", "title": "vshell Write/Read round trip", "statement": "If no 65536 consecutive grid positions hold equal values, writing a region of a shell and reading it back returns the header data and exactly the region's voxels whose mask is neither 0 nor 0xffffffff, with their masks, in file order; so the whole shell comes back when all masks are proper. Voxels with mask 0 (isolated ones) are lost, and longer runs are written with their length modulo 65536, which moves later voxels.", "quantifier": "all shells with in-range keys", "why_tests_cant": "run lengths and masks unbounded; wrap needs 65536-voxel runs", "anchors": ["vshell/write.go: write, encode", "vshell/read.go: read"]}
{"id": "C24", "title": "vshell Read is total, in range and rejects malformed data", "statement": "For every byte sequence and arguments vshell Read returns an error or a shell; with positive dims all voxels are in range, pairwise distinct, in file order, with masks other than 0 and 0xffffffff; overruns, zero counts and partial records are rejected; a truncated file reads as an error or as a prefix of the voxels.", "quantifier": "all byte strings", "why_tests_cant": "every corrupt file", "anchors": ["vshell/read.go: read"]}
{"id": "C25", "title": "the concurrent vshell writer", "statement": "Without write errors every schedule gives the same bytes, terminates and the encoder goroutine exits; if a write fails, an error is returned in every schedule (but the encoder goroutine can be left blocked forever).", "quantifier": "all schedules, channel capacities and fault points", "why_tests_cant": "tests see one schedule", "anchors": ["vshell/write.go: write, encode"]}
{"id": "C26", "title": "Bresenham line exactness", "statement": "In the first octant (0<=dy<=dx) the line plotter visits exactly one point per x from x1 to x2, starts at the first and ends at the second end point, and each plotted y is within half a voxel of the ideal line.", "quantifier": "all integer end points", "why_tests_cant": "unbounded slopes and lengths", "anchors": ["binvox/voxelize.go: firstOctantBressenham"]}
{"id": "C27", "title": "rasterised segments in all octants", "statement": "For any two end points the rasteriser plots both end points, only points in their bounding box within half a voxel of the ideal segment along the minor axis, and consecutive points are 8-connected, so the outline has no gaps.", "quantifier": "all pairs of integer points in all octants", "why_tests_cant": "eight hand-written symmetric cases", "anchors": ["binvox/voxelize.go: rasterizeShellPair"]}
{"id": "C28", "title": "voxelizer output stays inside the grid", "statement": "Every voxel produced by Voxelize has x<NX, 0<=y<NY, 0<=z<NZ, and x is negative only for outline voxels of a triangle reaching left of the grid; if no vertex lies left of TX every voxel is inside the grid. (Meshes that stick out on the left do produce voxels with negative x.) A grid is rejected exactly if a dimension is 0.", "quantifier": "all meshes, all grids", "why_tests_cant": "all float inputs", "anchors": ["binvox/voxelize.go: Voxelize, VoxelizeZ, floodFill, rasterizeShell"]}
{"id": "C29", "title": "Voxelize is schedule independent", "statement": "For every interleaving of the per-slice and per-row goroutines the resulting voxel set is the same and equals the union of the sequential slices.", "quantifier": "all schedules, all meshes", "why_tests_cant": "tests see one schedule", "anchors": ["binvox/voxelize.go: Voxelize, VoxelizeZ, floodFill"]}
{"id": "C30", "title": "triangle/plane slicing is exact", "statement": "In exact arithmetic, each point the slicer returns lies on the slicing plane and on an edge of the triangle. If the triangle does not lie in the plane, has no edge that is almost (within 1e-9) but not exactly horizontal, and does not have V2 on the plane with V1 and V3 on opposite sides, the two returned points span exactly the intersection of triangle and plane, and no points are returned exactly if it is empty. If V2 is on the plane between V1 and V3 only the point V2 is reported (the rest of the cut is lost); a triangle lying in the plane yields nothing. Slicing a mesh yields exactly the cuts of the triangles that are met, one each, in mesh order; if every triangle is as above, the points of the mesh at that height are exactly the points of these segments.", "quantifier": "all triangles, meshes and planes", "why_tests_cant": "continuous space", "anchors": ["binvox/voxelize.go: intersectZPlane, intersectTriZPlane, intersectSegment"]}
{"id": "C31", "title": "flood fill fills exactly the inside", "statement": "Along a row whose shell crossings are consistently oriented, the fill sets exactly the shell voxels and the voxels strictly between an entering and its matching leaving crossing.", "quantifier": "all rows and all crossing sequences", "why_tests_cant": "unbounded rows", "anchors": ["binvox/voxelize.go: floodFill"]}
{"id": "C32", "title": "marching-cubes tables are mutually consistent", "statement": "For each of the 256 corner patterns the edge table marks exactly the cube edges whose end corners differ and the triangle table uses only marked edges, in whole triangles, well terminated.", "quantifier": "all corner patterns (and every grid cell of every model)", "why_tests_cant": "a single wrong entry among 4096 is invisible to golden tests", "anchors": ["binvox/marching-cubes.go: edgeTable, triTable, polygonise"]}
{"id": "C33", "title": "MarchingCubes of any model is a closed mesh", "statement": "For every finite voxel set (white and coloured voxels) and every order of the map iteration, in exact arithmetic, MarchingCubes does not panic and the mesh is closed: every directed edge occurs exactly as often as its reverse; the multiset of triangles does not depend on the map order.", "quantifier": "all finite voxel sets", "why_tests_cant": "all local configurations of adjacent cells; existing golden tests cover a few", "anchors": ["binvox/marching-cubes.go: MarchingCubes"]}
{"id": "C34", "title": "marching-cubes vertices separate filled from empty voxels", "statement": "Every mesh vertex is the midpoint between the centres of one filled voxel and one empty axis neighbour, and every such midpoint is a vertex of the mesh. Triangles face outwards: for at least two of the three vertices, the triangle's normal points from the filled to the empty voxel of that vertex.", "quantifier": "all finite voxel sets", "why_tests_cant": "unbounded", "anchors": ["binvox/marching-cubes.go: MarchingCubes, vertexInterp"]}
{"id": "C35", "title": "manifold grid cells", "statement": "The 8-bit pattern ManifoldMesh assigns to a grid cell has bit i set iff the voxel at corner i of this cell is filled; all other cells have pattern 0.", "quantifier": "all voxel sets, all map orders", "why_tests_cant": "unbounded", "anchors": ["binvox/manifold.go: ManifoldMesh"]}
{"id": "C36", "title": "ManifoldMesh is closed and consistently oriented, and exactly when", "statement": "In exact arithmetic and for a positive scale, the mesh ManifoldMesh builds is watertight (every edge piece is covered equally often in both directions, after cutting edges at T-junctions) if and only if no 2x2x2 block of voxels has one of 88 torn patterns, and every block with one of 4 patterns that cross their far x face the wrong way is followed in x by a block with one of 5 patterns that cross their near x face the wrong way, and conversely. So it is watertight whenever no block has one of these 96 leaky patterns, and a model that consists of a single leaky block never is. In particular the mesh is watertight for every well-composed model (in each block the filled voxels and the empty voxels are connected through faces) that avoids five unhandled chains of four voxels; for well-composed models every triangle lies between a filled and an empty voxel and faces the empty one. The mesh is not closed edge by edge: an L-shaped model has T-junctions.", "quantifier": "all finite voxel sets", "why_tests_cant": "neighbouring patterns must fit in all combinations", "anchors": ["binvox/manifold.go: ManifoldMesh, grid2tris", "binvox/face-templates.go"]}
{"id": "C37", "title": "the triangle order is a strict weak order", "statement": "TriangleLess is the lexicographic order of the nine coordinates: irreflexive, transitive, and total up to equality of the coordinates (NaN excluded), so the sorted ManifoldMesh of a model does not depend on the map iteration orders.", "quantifier": "all triangles", "why_tests_cant": "comparators are infinite objects", "anchors": ["binvox/manifold.go: TriangleLess"]}
{"id": "C38", "title": "voxcut subtracts", "statement": "voxcut of a white base and a white cut returns exactly the base voxels whose indices are not in the cut, whatever the map order; an empty cut returns the base, an empty base with a non-empty cut is an error. The program, given base and cut files written whole and a window, writes a file that reads back as what remains of the base in [start, start+count), moved to the origin; unreadable cut files are skipped; it fails iff some cut opens and nothing of the base remains in the closed window [start, start+count].", "quantifier": "all bases, cuts, windows and map orders", "why_tests_cant": "unbounded sets, windows and cut lists", "anchors": ["cmd/voxcut/voxcut.go: voxcut, main"]}
{"id": "C39", "title": "voxcut ignores translations", "statement": "The result of voxcut does not depend on the translations of base and cut. It is the subtraction of the solids in world space when the two grids have the same translation and resolution, and both kinds of error occur otherwise: a cut removes voxels it does not touch, and leaves voxels it covers.", "quantifier": "all bases, cuts and translations", "why_tests_cant": "only shows for differing origins", "anchors": ["cmd/voxcut/voxcut.go: voxcut"]}
{"id": "C40", "title": "the chunks of the .vox file", "statement": "For every model of n voxels the written .vox file declares 4n+16 bytes of children for its main chunk but 16n+40 follow, and declares 4n+4 bytes of voxel data but 16n+4 follow, so the sizes are never consistent (the second only for n=0); its size chunk holds the largest coordinates, not the dimensions; each voxel of the model has exactly one 16-byte record and there is no other record.", "quantifier": "all models small enough for int32 sizes, all map orders", "why_tests_cant": "a golden test pins one file", "anchors": ["cmd/voxcut/voxcut.go: writeVOX"]}
{"id": "C41", "title": "voxcut-dice tiles partition the model", "statement": "For every positive size up to the largest dimension the tiles voxcut-dice visits have pairwise distinct names and every voxel of the grid lies in exactly one; if the run succeeds the files together hold exactly what remains of the base after the cuts, each voxel at its place; the run stops at the first tile whose closed window holds nothing that remains, if some cut opens there, and never stops without cuts; a size above every dimension is refused; for a size of zero or less the loops do not end.", "quantifier": "all models, cuts, dims and tile sizes", "why_tests_cant": "unbounded sizes", "anchors": ["cmd/voxcut-dice/voxcut-dice.go: main"]}
{"id": "C42", "title": "stldice tiles agree with the whole model", "statement": "Every voxel written in a stldice tile sits where the same voxel of a single voxelization of the whole model would sit, and a tile holds exactly the voxels of that whole-model voxelization inside it; all inputs of a run are diced in one common box, the one given or else that of the first input; tiles do not overlap and have distinct file names; a tile without a file is empty, while an empty tile may still get a file, without voxels (when the model lies to its left). The tiles together cover the first n*floor(D/n) layers of every axis, where D is the number of voxels the bounding box needs: the last D mod n layers of an axis are silently dropped (none on the longest axis, since dim must be a multiple of n), and there are models that lose voxels this way.", "quantifier": "all meshes, bounding boxes, dims and tile counts (exact arithmetic), all tiles and voxels", "why_tests_cant": "the layers dropped and the agreement across tile seams only show for particular ratios of box sides, dims and counts; a test samples a few", "anchors": ["cmd/stldice/stldice.go: main, diceMesh", "binvox/voxelize.go: Voxelize"]}
{"id": "C43", "title": "stldice re-run after an interruption", "statement": "stldice interrupted between two tile files and run again with the same arguments ends with exactly the files of an uninterrupted run and writes no file twice. The follow-up voxcut commands it prints, however, are only those of the tiles it wrote itself: tiles that already existed are left out, and repeating a finished run prints no tile command at all. A file cut short by the interruption is kept as it is and never completed. Without -mbb the box is that of the first mesh, read again by the second run.", "quantifier": "all meshes, argument lists with distinct names, tile counts, directory contents and interruption points", "why_tests_cant": "every interruption point and directory content counts", "anchors": ["cmd/stldice/stldice.go: main, diceMesh"]}
{"id": "C44", "title": "binvox-dice tiles share their faces", "statement": "binvox-dice prints one block of commands per tile, each with one binvox command per input and then a voxcut command whose suffix is distinct and equals the count binvox has reached for every input. Neighbouring tiles share bit-identical boundary values and no others come between them. In float64 the first boundary is the lower corner exactly, boundaries never decrease, and the tiles fill the range up to the last boundary without overlap. The last boundary is ll + (ur-ll) with both operations rounded: it is the upper corner when ur-ll is a float64, within half an ulp of each operation otherwise, and it does miss the corner for ordinary decimal boxes, on either side.", "quantifier": "all bounding boxes of float64 corners up to 2^1022 in magnitude, all cut counts, all argument lists", "why_tests_cant": "float rounding depends on the exact values; tests sample a few boxes", "anchors": ["cmd/binvox-dice/binvox-dice.go: main"]}
{"id": "C45", "title": "SVX slice images", "statement": "With -nz 1, slice z of the archive that stl2svx writes is a (dim+2)x(dim+2) image whose pixel (x+1, dim-y) is white iff voxel (x,y,z) is in the voxelized base and in none of the voxelized cuts (among the columns covered by the nx x ny regions) and black otherwise, so with a black border of one pixel and Y mirrored, whatever the order in which the maps of voxels and pixels are walked. With -nz > 1, any voxel of an upper region in the slice makes the program stop with log.Fatal.", "quantifier": "all meshes, dims, region counts and map iteration orders", "why_tests_cant": "map iteration order is random, and meshes are unbounded", "anchors": ["cmd/stl2svx/stl2svx.go: agent, generateMR, voxelize, imager", "stl2svx/agent/agent.go: SliceJob, voxelize, imager"]}
{"id": "C46", "title": "stl2svx's race for the zip file", "statement": "generateMR releases its caller before the zip file is created and the manifest is written. In every schedule of the two threads the outcome depends on how many of the three steps (create zip file, create manifest.xml, write it) come before the first image is created: none: the program panics on the nil writer; one: the manifest is missing or sits behind some image, which it truncates; two: manifest.xml is first but empty; three, and only then: the archive is the manifest followed by all images, complete. All four happen.", "quantifier": "all schedules, numbers and sizes of images", "why_tests_cant": "race that a test run seldom shows", "anchors": ["cmd/stl2svx/stl2svx.go: main, master, generateMR, imager, writeManifest"]}
{"id": "C47", "title": "SVX reading and round trip", "statement": "svx2stl keeps exactly the pixels of value at least 128, each as the voxel (x, y, slice number); a slice name that does not match the manifest's pattern is an error; slice numbers are read back up to 9999 only. The model gets the grid sizes of the manifest and a Scale of one voxel, so that voxels come out voxelSize/D wide, D being the largest grid size. Reading what stl2svx wrote (nz = 1, fewer than 9999 slices) gives voxel (x+1, dim-y, z+1) for each voxel (x,y,z) of base minus cuts, and nothing else; with more slices it is an error. (The grid sizes have Y and Z swapped, the voxels have not, so that voxels may lie outside the grid.)", "quantifier": "all archives; all meshes, dims and region counts", "why_tests_cant": "unbounded images and archives", "anchors": ["cmd/svx2stl/main.go: read, scanImage, manifest", "cmd/stl2svx/stl2svx.go"]}
{"id": "C48", "title": "stl.Merge joins all triangles, in some order, with a bounded pool", "statement": "Under every schedule of the worker pool Merge's result is the concatenation, in some order, of the triangles of all the files, or the error of a file that fails to load; at most numWorkers files are being loaded at once; with at least one worker no schedule deadlocks and every schedule returns within 9 steps per file plus one. With zero workers and at least one file it blocks forever. (With no files it returns a nil mesh, which merge-stl would then dereference.)", "quantifier": "all schedules, worker counts, file lists and load results", "why_tests_cant": "the interleavings of the goroutines are unboundedly many", "anchors": ["stl/stl.go: Merge", "cmd/merge-stl/merge-stl.go: main"]}
{"id": "C49", "title": "the master gives an agent at most one slice at a time, if busy agents do not re-register", "statement": "In every history of registrations, job starts, dial results, completions and failures in which an agent registers only while it is not working, no agent is given two slices at a time and a working agent is not idle; only agents that have registered are ever given work. (An agent that registers again while working is given a second slice: counterexample.)", "quantifier": "all histories of the master, any number of agents, jobs and slices", "why_tests_cant": "concurrent histories are unboundedly many", "anchors": ["stl2svx/master/master.go: RegisterAgent, getIdleAgent, runAgent"]}
{"id": "C50", "title": "what NewJob's archive contains, and when the master waits forever", "statement": "With one NewJob at a time, NewJob never replies with an error: the zip it returns is closed and holds the manifest, the two blank slices, and exactly one entry per slice whose call to an agent succeeded; a slice whose call failed is silently missing. An agent is lost with every failed dial or call: idle + working + lost agents never exceed the registrations, and once all are lost a waiting slice waits forever. Without losses and with at least one agent the master always can go on and finishes within a number of steps linear in slices and jobs. If all calls succeed and the request's prefix is \"out\", the archive reads back (svx2stl) as the base minus the cuts, as that of the local program does; with any other prefix svx2stl rejects it, because the files are always named out-... (Two concurrent NewJobs mix their archives: counterexample.)", "quantifier": "all histories, requests, rpc failures and agent counts", "why_tests_cant": "fault injection at every rpc of every interleaving", "anchors": ["stl2svx/master/master.go: NewJob, runAgent, writeManifest, writeBlankImages", "stl2svx/agent/agent.go: SliceJob"]}
{"id": "C51", "title": "what the slave server keeps and returns", "statement": "Whatever its working directory holds and whatever the history of requests and disk failures: a subtraction never succeeds, GetSTLMesh's reply never holds a mesh, no request creates or changes a binvox model (one that is there at the end was there at the start, unchanged), a request touches only the file of its own region (model-, its corners and numbers of voxels with dashes between, .binvox), and distinct regions have distinct files. Adding to or subtracting from an existing model empties its file and kills the server. An addition that reports success has put the whole STL file of the request there. Without a model, adding succeeds but keeps only the STL file given last: earlier additions are lost and getting or subtracting still fails. GetSTLMesh does not clear the model. The master server, by contrast, reports success for every addition and subtraction and returns no mesh for any request.", "quantifier": "all directories, request histories, STL byte strings and disk failures", "why_tests_cant": "the histories are unbounded", "anchors": ["server/stldice-slave/stldice-slave.go: AddSTLMesh, SubSTLMesh, GetSTLMesh, filename", "binvox/write.go: Write", "server/stldice-master/stldice-master.go"]}
{"id": "C52", "title": "STL parsing: binary or text, and exactly which triangles", "statement": "A byte string shorter than 84 bytes is refused (also a correct short text file). One whose length is 84+50*count (count: the little-endian word at 80) is binary: it has exactly count triangles, triangle i from the bytes at 84+50i, with no read out of bounds; SaveSTL's output reads back with every coordinate rounded to float32. Text is never taken for binary below 7.5 GB. Any other byte string is text: its triangles are its lines \"vertex x y z\" (any Unicode white space, other lines ignored), three by three; if their number is not a multiple of three the loader panics; a line of 64 KiB or more is an error (or that panic).", "quantifier": "all byte strings", "why_tests_cant": "all byte strings", "anchors": ["server/stldice-slave/stldice-slave.go: stlToMesh, loadSTLA, loadSTLB, GetSTLMesh"]}
{"id": "C53", "title": "stl2svx regions", "statement": "For each input file the jobs of the local stl2svx enumerate each of the nx*ny*nz regions exactly once, all with the base's region size, and every voxel of the covered part of the model lies in exactly one region. An agent makes the same jobs, except that it dies when a cut would by itself have a region of no size, which the local program accepts.", "quantifier": "all meshes, dims and counts", "why_tests_cant": "unbounded", "anchors": ["cmd/stl2svx/stl2svx.go: generateMR", "stl2svx/stl/stl.go: New", "stl2svx/agent/agent.go: generateMR"]}
{"id": "C54", "title": "map-reduce slicing in stldice-mr", "statement": "Whatever the order of the mappers' values and of the map iterations, pixel (x,y) of the image of slice z is white iff some region of the base has a voxel at (x,y,z) counted from the region's corner and no region of any cut has one; the file is written iff some region has a voxel at that height. So with a single region the image shows base minus cuts, and with several the regions are drawn over each other, and slices above the first row of regions have no file.", "quantifier": "all meshes, dims, counts and arrival orders", "why_tests_cant": "arrival order and inputs are unbounded", "anchors": ["cmd/stldice-mr/stldice-mr.go: generateMR, voxelize, imager"]}
{"id": "C55", "title": "float64: how many voxels -dim gives", "statement": "stldice and stl2svx compute the number of voxels along an axis as ceil(extent * (dim/scale)) in float64. Along the longest axis, whose extent is the scale itself, that is the -dim asked for or one more, never fewer; with a -dim that is a power of two it is exactly -dim for every scale. Along any axis it differs from the exact count by at most one, and not at all unless the extent is within 2^-51*dim voxels of a whole number of voxels. The extra layer does occur: -dim 1000 on a 1.9 mm model gives 1001 layers.", "quantifier": "all -dim up to 2^50, all finite scales between 2^-500 and 2^500 mm, all finite extents up to the scale", "why_tests_cant": "rounding depends on the exact bits of dim and scale; no test suite samples all of them", "anchors": ["cmd/stldice/stldice.go: diceMesh", "cmd/stl2svx/stl2svx.go: agent", "cmd/stldice-mr/stldice-mr.go"]}
{"id": "C56", "title": "float64: where a tile lands in the merged shell", "statement": "vshell's Add places a part at int((T - T0)*VoxelsPerMM) voxels from the shell's corner, in float64. For the tiles stldice writes, with translations min + (i*d)/vpmm in float64 and a shell whose resolution is within 2^-40 of the one meant: a tile n voxels above the shell's corner lands at n or n-1, a tile n voxels below at -n or -n+1, tiles in line stay in line; so neighbouring tiles may overlap or be apart by one layer, never more. When a voxel is a power of two millimetres and the corner a multiple of a small fraction of it, every tile lands exactly. The misplacement does occur: the second of two 32-voxel tiles of a 6.7 mm model at -dim 64 lands at 31.", "quantifier": "all -dim, tile sizes and indices within 2^38 voxels of the origin, all scales between 2^-300 and 2^300 mm, all finite corners in that range, all shell resolutions within 2^-40", "why_tests_cant": "truncation turns a rounding error of one ulp into a whole voxel, for some inputs only", "anchors": ["vshell/merge.go: update", "cmd/stldice/stldice.go: diceMesh", "vshell/vshell.go: VoxelsPerMM"]}
{"id": "C57", "title": "float64: drift of a shell's resolution, and refusal of tiles", "statement": "Each time Add enlarges a shell it multiplies Scale by the ratio of the resolutions after and before. Starting from a tile stldice wrote, after n enlargements (n up to 4000) to any dimensions the resolution is finite and within (15+16n)*2^-53 of dim/scale, relatively; up to 500 enlargements it is within 2^-40. If dim/scale is farther than that from every whole number, the coarse test int(vpmm) == int(vpmm') accepts every tile of the dice. Otherwise it may refuse a tile of the very same resolution: the fourth of four 16-voxel tiles of a 6.4 mm model at -dim 64 (10 voxels/mm) is refused, so the merge fails.", "quantifier": "all -dim up to 2^50, scales between 2^-300 and 2^300 mm, all sequences of up to 4000 growth steps to dimensions up to 2^50", "why_tests_cant": "a test with a few merges sees no drift; the bound is over all growth histories", "anchors": ["vshell/merge.go: Add, update", "vshell/vshell.go: VoxelsPerMM", "cmd/stldice/stldice.go: diceMesh"]}
{"id": "C58", "title": "voxels follow the surface to within a voxel", "statement": "In exact arithmetic: every voxel Voxelize sets is at most half a voxel (along x and along y) away from a point of the mesh surface at the height of the middle of the voxel's layer, or lies in its row strictly between two voxels that are. Conversely, for a triangle inside the grid in x and y (not lying in a slicing plane, no almost-flat edge, V2 not alone on the plane between V1 and V3) every point of it at the middle height of a layer of the grid has a voxel of the result in that layer at most one voxel away.", "quantifier": "all meshes with distinct triangles, all grids with positive scale, all surface points", "why_tests_cant": "the surface is a continuum and meshes are unbounded", "anchors": ["binvox/voxelize.go: Voxelize, VoxelizeZ, rasterizeShell, plotLine, floodFill"]}
{"id": "C59", "title": "a box voxelizes to exactly the voxels it meets", "statement": "In exact arithmetic, for an axis-aligned box mesh (12 outward triangles) of any size and place with extent at least 1e-9 in z and not reaching left of the grid, Voxelize sets exactly those voxels of the grid whose horizontal middle square (lower sides included, upper excluded) contains a point of the box: nothing missing inside, nothing outside, at every voxel scale.", "quantifier": "all boxes (degenerate in x and y included), all grids with positive scale", "why_tests_cant": "boxes, scales and grids range over a continuum", "anchors": ["binvox/voxelize.go: Voxelize, VoxelizeZ, intersectZPlane, rasterizeShell, floodFill"]}
{"id": "C60", "title": "MarchingCubes in float64: where the mesh is closed and where it has gaps", "statement": "MarchingCubes computed in float64 arithmetic returns a mesh whose directed edges pair up with their reverses, whatever order the cells are visited in, provided that on every exposed voxel face the midpoint of the two voxel centres comes out the same from both sides. This is so when all voxels keep at least two voxel widths away from the planes x=0 and y=0, and when the voxel size is a power of two and the origin a multiple of half a voxel; then it also holds of the float32 coordinates of an STL file. It is not so in general: for a single voxel of 0.3 mm at the origin the mesh has an edge without partner, and for a single voxel of 19.425 mm with TX=-9.615328121185303 even the STL file has one.", "quantifier": "all models (any voxels, position and scale in the stated ranges), all iteration orders of the cell map", "why_tests_cant": "whether two float64 computations of one vertex agree depends on the rounding of every voxel size and origin; tests with round numbers see closed meshes", "anchors": ["binvox/marching-cubes.go: MarchingCubes, polygonize, cell, vertexInterp", "binvox/binvox.go: VoxelsPerMM"]}
{"id": "C61", "title": "ManifoldMesh in float64 stays watertight", "statement": "The triangles ManifoldMesh really computes, in float64, form a watertight surface whenever those of exact arithmetic do (which models these are, C36 lists by their 2x2x2 blocks): after cutting some edges at points lying on them, the pieces pair up with their reverses. This holds for every Scale from 2^-500 to 2^500, every translation up to 2^1000 and voxels up to 2^50, at the origin as elsewhere, where MarchingCubes leaves gaps (C60); and it still holds of the numbers in the STL file, rounded to float32, for Scale up to 2^60 and translations up to 2^120.", "quantifier": "all such models, filled voxel sets and map iteration orders", "why_tests_cant": "rounding differs for every coordinate; tests compare a few meshes", "anchors": ["binvox/manifold.go: ManifoldMesh, voxelToVector", "binvox/face-templates.go"]}
{"id": "C62", "title": "Float64 meshes are the exact ones up to rounding", "statement": "MarchingCubes and ManifoldMesh compute in float64 the mesh that exact arithmetic gives: run on the same model, with the maps visited in the same order, they return the same triangles in the same order, and every coordinate is finite and differs from the exact one by at most 2^-47 of (its distance from the model's translation + the size of the translation + one voxel's side); written to an STL file in float32, by at most 2^-23 of that (or 2^-149). Largest dimension at most 2^50, Scale between 2^-300 and 2^300, translations up to 2^300, voxel indices up to 2^50 in size.", "quantifier": "all voxel sets, translations, scales and dimensions in those ranges, and all map iteration orders", "why_tests_cant": "a test compares a few meshes with recorded output; the error depends on the bits of every coordinate, and cancellation against a large translation could move a vertex by a whole voxel", "anchors": ["binvox/marching-cubes.go: MarchingCubes, voxelToVector, vertexInterp, polygonize", "binvox/manifold.go: ManifoldMesh, voxelToVector, grid2tris", "binvox/binvox.go: VoxelsPerMM"]}
{"id": "C63", "title": "voxelizing in float64 is as good as exact, up to 2^-46 of the scene", "statement": "With every operation rounded as IEEE binary64: Voxelize fails exactly when a dimension is zero, and otherwise (for any vertices, infinities and NaN included) sets only voxels with x < NX, 0 <= y < NY, 0 <= z < NZ; VoxelizeZ gives the same layer as Voxelize; every schedule of the slice and row goroutines ends, without a race or a panic, with that result. If the coordinates are finite and at most L (at least the side of the grid, at most 2^60 voxels), every voxel is, up to 2^-46 L, at most half a voxel from a point of the mesh at the middle of its layer, or strictly between two such voxels of its row; and every point of a triangle (edges flat or rising 1e-9 or more, no vertex within 2^-46 L of the layer's middle, inside the grid by that much) at the height at which a layer is cut, which is the middle of the layer up to 2^-46 L, has a voxel of that layer at most one voxel away, up to 2^-46 L. A mesh that is not left of the grid sets no voxel below x = -1; but it can set x = -1 by rounding alone: the claim that it cannot is refuted by a mesh of one triangle inside the grid.", "quantifier": "all grids and meshes of float64 numbers (the error bounds: finite, at most L), all voxels and all surface points, all schedules and map orders", "why_tests_cant": "rounding errors depend on all coordinates; the surface is a continuum and meshes are unbounded", "anchors": ["binvox/voxelize.go: Voxelize, VoxelizeZ, intersectSegment, intersectTriZPlane, rasterizeShellPair, floodFill, plotLine"]}
{"id": "C64", "title": "merge-binvox: what a run does to the directory", "statement": "A run of merge-binvox changes no file but prefix.vsh, and the -f flag changes nothing (the output is overwritten with or without it). The inputs are the files named prefix*.binvox, each once, in the bytewise order of their names. The run finishes exactly with prefix.vsh holding the shell built from all of them in that order; or it stops at the first file that cannot be read or whose resolution does not fit, leaving the directory unchanged; or, when there is no input, it truncates prefix.vsh to nothing and crashes. If the parts fit one grid (whole-voxel offsets from the first, none before it on any axis) and do not overlap, the file written holds, at the same places in space, exactly voxels of the parts, with no mask bit towards an absent voxel, and every voxel that has a neighbour in its own part and is not enclosed by the whole. A first file without voxels makes the whole be placed at its origin instead; a later one of dimensions zero stops the run.", "quantifier": "all directories, prefixes without *, ?, [ and backslash (for others see C86) and file contents, all iteration orders and slice growths", "why_tests_cant": "the listing, contents, orders and capacities range over infinitely many cases; a silent overwrite or misplacement shows only for some", "anchors": ["cmd/merge-binvox/merge-binvox.go: main", "vshell/merge.go: Merge, Add", "vshell/write.go: Write"]}
{"id": "C65", "title": "stldice then merge-binvox gives back the shell of the model", "statement": "If stldice dices a mesh (at most 100 tiles per axis, no older prefix*.binvox in the directory) and merge-binvox then runs with the same prefix, and the first tile that has a file is not beyond another one on any axis and holds a voxel, the run finishes and prefix.vsh holds, placed where a voxelization of the whole model would place them, voxels of the model only, with no mask bit towards an absent voxel, and among them every voxel that is not enclosed and has a neighbour in its own tile. Otherwise the result can be wrong without an error: two boxes in opposite corners of a square diced 2 x 2 give a shell none of whose voxels is a voxel of the model. Above 100 tiles on an axis the order of the names is no longer that of the tiles, and the tiles of a run whose prefix extends this one are merged too.", "quantifier": "all meshes, boxes, dims, tile counts up to 100 per axis, prefixes without *, ?, [ and backslash, directories, iteration orders and slice growths", "why_tests_cant": "the composition of two programs over every mesh and tiling; seams and misplacements show only for some tilings", "anchors": ["cmd/stldice/stldice.go: main, diceMesh", "cmd/merge-binvox/merge-binvox.go: main", "vshell/merge.go: Merge"]}
{"id": "C66", "title": "the -mbb flag: which box is read", "statement": "stldice and binvox-dice read a box written as two corners of three comma separated numbers, with any blanks, round or square brackets or none, and a hyphen between the corners, as exactly the six numbers written, whatever signs and exponents they have, provided a bracket or a blank comes before the hyphen; also without one if the fourth number has no hyphen in it. If it has one, everything up to its last hyphen is taken as part of the third number (so a compact box between negative corners, or one with a fourth number like 1e-5, is refused). Whatever is accepted has that form, and its six fields are the numbers returned. A box printed as (a,b,c)-(d,e,f) is read back.", "quantifier": "all texts, all numbers and all ways to space and bracket them", "why_tests_cant": "the pattern is ambiguous and resolved by greedy matching with backtracking; examples do not show which texts are split differently", "anchors": ["cmd/stldice/stldice.go: mbbRE, parseMBB", "cmd/binvox-dice/binvox-dice.go: mbbRE, main"]}
{"id": "C67", "title": "merge-stl: what a run does to the directory", "statement": "A run of merge-stl changes no file but prefix.stl. If prefix.stl exists and -f is not given, it stops and changes nothing. Otherwise, under every schedule of its workers: if all files prefix*.stl other than prefix.stl can be loaded, and there is one, prefix.stl is written with the triangles of exactly these files, each once, file by file in some order; if one cannot be loaded nothing changes; if there is none the program crashes, leaving the old output or an empty file. Merging again with -f gives the same triangles (the old output is not merged into the new one). With at least one worker a run can always be completed; with -num 0 and a part to load no run ends.", "quantifier": "all directories, prefixes without *, ?, [ and backslash (for others see C86), file contents, worker counts and schedules", "why_tests_cant": "schedules and directory contents are unbounded; an overwritten or doubled part shows only in some", "anchors": ["cmd/merge-stl/merge-stl.go: main", "stl/stl.go: Merge, merge"]}
{"id": "C68", "title": "from .binvox files to one closed STL", "statement": "marching-cubes writes no file but its output, and that only if it could read the input; the STL then holds a closed mesh (every directed edge as often as its reverse), also after the rounding of coordinates in the file. merge-stl of closed parts gives a closed mesh. So running marching-cubes on any .binvox files (say, the tiles of stldice) and merging the results gives a closed STL, under every schedule and map order.", "quantifier": "all directories, file contents, numbers of parts, schedules, map orders and roundings of vertices", "why_tests_cant": "must hold for every voxel set and every rounding of the file format", "anchors": ["cmd/marching-cubes/marching-cubes.go: main", "cmd/merge-stl/merge-stl.go: main", "binvox/marching-cubes.go: MarchingCubes"]}
{"id": "C69", "title": "the meshes have the volume of the voxels, with the sign of an outward surface", "statement": "The signed volume of the mesh (the sum over its triangles of the determinant of the corners, over six; positive if the triangles face outwards) is: for MarchingCubes, between 1/6 and 11/6 of the volume of the voxels, and within 5/12 of a voxel's volume for each 2x2x2 block of voxels that is neither full nor empty; for ManifoldMesh without leaky blocks, at least the volume of the voxels, and exactly that volume if the model is well composed and has no unhandled chain; for every watertight ManifoldMesh, at least the volume of the voxels less a quarter of a voxel for each of the listed pairs of crossed blocks (in which two leaks close each other), a loss that does occur.", "quantifier": "all voxel sets, dimensions, positions and scales, map iteration orders and schedules", "why_tests_cant": "a sum over all triangles of an arbitrary model; tests look at a few shapes", "anchors": ["binvox/marching-cubes.go: MarchingCubes", "binvox/manifold-mesh.go: ManifoldMesh"]}
{"id": "C70", "title": "the inside of the meshes is the set of voxels", "statement": "Take any voxel of the grid or outside it. No point of the octahedron spanned by the centres of its six faces is on a triangle of the mesh of MarchingCubes or ManifoldMesh, whatever the model; on a well-composed model no point inside the voxel at all is on a triangle of ManifoldMesh. Take any point of that octahedron that is not on one of eight vertical planes through the centre (x or y displacement zero, or their ratio 1, 2 or 1/2 up to sign). The vertical line through it meets no edge of the mesh, and going up from it one leaves the mesh exactly once more than one enters it if the voxel is in the model, and as often as one enters it if not: the mesh winds once around the voxels of the model and not around any other. This holds for MarchingCubes on every model, and for ManifoldMesh on every model whose mesh is watertight; on well-composed models with a watertight mesh it holds for all points inside the voxel, except those on some vertical planes, so the mesh encloses exactly the union of the voxels.", "quantifier": "all models, all voxels of infinite space, all such points, map iteration orders and schedules", "why_tests_cant": "the slicer's notion of inside, for every model and every point", "anchors": ["binvox/marching-cubes.go: MarchingCubes", "binvox/manifold-mesh.go: ManifoldMesh"]}
{"id": "C71", "title": "ToMesh gives the surface of the voxels, in place", "statement": "Provided the library call that meshes unit cubes gives the surface of the union of the cubes (an oriented set of squares between present and absent voxels), BinVOX.ToMesh gives exactly the surface of the union of the voxels of the model, plain and coloured, each voxel being the cube that the model's origin and resolution put it at: every point between a present and an absent neighbour is covered, and every triangle lies on such a square and faces outwards. If the voxels are within the grid, the mesh is within the box MBB reports. And if the library's mesh of unit cubes winds once around the inside of each cube and not around any other, ToMesh's mesh winds once around every point in general position inside a voxel of the model and not around any inside another voxel.", "quantifier": "all models, voxel sets, iteration orders of the maps, and all mesh builders that meet the contract", "why_tests_cant": "every voxel set and every point of the surface", "anchors": ["binvox/mesh.go: ToMesh"]}
{"id": "C72", "title": "svx2stl over a directory", "statement": "svx2stl run on files x.svx handles them in order, writes x.stl for each it gets through and no other file, and stops only at the end, at a file that is missing, no archive or refused by the reader, or by panicking at an archive without entries. Each STL holds a closed mesh that winds once around every voxel of the archive's model and around no other (every point in general position of the octahedron between the voxel's centre and the middles of its six sides) (if the manifest's grid sizes are not all zero or less). If the archive was written by stl2svx with one region in z, those voxels are the base minus the cuts (moved by one in x and z and mirrored in y) if there are fewer than 9999 slices, and otherwise svx2stl refuses the file.", "quantifier": "all directories, lists of files, archives, map orders, meshes and resolutions", "why_tests_cant": "the composition of three programs for every input", "anchors": ["cmd/svx2stl/main.go: main, read", "binvox/marching-cubes.go: MarchingCubes", "cmd/stl2svx/main.go: main"]}
{"id": "C73", "title": "stl2svx-client", "statement": "With -stl a,b,c the client sends the triangles of the named files, the first as base and the others as cuts in the order given, and writes the answer, whole, to prefix-dim-nx-ny-nz.svx; if a file cannot be read or the master answers with an error, it writes nothing. Requests with different parameters go to different files if no number is negative. If the master runs one job at a time and no agent fails, svx2stl on that file gives the closed mesh of base minus cuts if the prefix is \"out\", and refuses the file for every other prefix.", "quantifier": "all directories, file names, prefixes, parameters, histories of the master and agents", "why_tests_cant": "distributed histories and all names", "anchors": ["stl2svx/stl2svx-client/stl2svx-client.go: main, loadSTL", "stl2svx/master/master.go: NewJob", "cmd/svx2stl/main.go: main"]}
{"id": "C74", "title": "the address an agent registers", "statement": "An agent listening on host:port tells the master the first listed network address that is neither IPv6 nor a loopback address 127.*, with its port. Only if there is none it gives the last address listed, whatever kind it is (without the brackets an IPv6 address needs), or an empty host if none is listed.", "quantifier": "all lists of interfaces and addresses, including interfaces that cannot be read", "why_tests_cant": "every network configuration", "anchors": ["stl2svx/stl2svx-server/stl2svx-server.go: getAddress"]}
{"id": "C75", "title": "stldice, marching-cubes on each tile, merge-stl: the STL encloses the model", "statement": "If stldice dices a mesh in a directory without old tile or STL files, marching-cubes is run on every tile file with an output file of its own named out*.stl, and merge-stl joins these, then every command finishes (whatever the schedule of merge-stl's workers and the map orders) and out.stl holds a closed mesh that winds exactly once around every voxel that a voxelization of the whole model sets in the covered part of the grid, at the place that voxelization gives it, and not at all around any other voxel (every point in general position of the octahedron between the voxel's centre and the middles of its six sides). This needs no condition on the order of the tiles, unlike merge-binvox (C65).", "quantifier": "all meshes with distinct triangles, boxes, resolutions, tile counts, prefixes, output names without *, ?, [ and backslash, voxels, map orders and schedules", "why_tests_cant": "the claim is about every model, every tiling and every schedule of three programs run one after the other", "anchors": ["cmd/stldice/stldice.go: diceMesh", "cmd/marching-cubes/marching-cubes.go: main", "cmd/merge-stl/merge-stl.go: main", "binvox/marching-cubes.go: MarchingCubes", "stl/stl.go: Merge"]}
{"id": "C76", "title": "manifold-mesh: what a run does", "statement": "manifold-mesh writes no file but its output, and that only if it could read the input. The STL holds the triangles of ManifoldMesh of the model read, whatever the map orders; they are watertight exactly if the model's 2x2x2 blocks are as C36 lists, and then they wind once around every voxel of the model and around no other (every point in general position of the octahedron between the voxel's centre and the middles of its six sides).", "quantifier": "all directories, file contents, file names and map orders", "why_tests_cant": "every model and every order of map iteration", "anchors": ["cmd/manifold-mesh/manifold-mesh.go: main", "binvox/manifold.go: ManifoldMesh"]}
{"id": "C77", "title": "bounding box of a voxel shell, also after adding parts", "statement": "The box VShell.MBB returns contains the world cell of every voxel inside the dimensions, its corners are those of the grid and its largest side equals Scale. After Add of a part whose origin is a whole number of voxels away (components of one sign) the box contains the world cells of every voxel of the part and of every voxel that was in the shell; after any number of parts on the positive side of the origin the low corner is unchanged and the box contains every voxel of every part, where the part itself puts it in the world.", "quantifier": "all shells, parts, offsets and sequences of parts", "why_tests_cant": "dimensions, origin and scale are all changed by Add, for unboundedly many parts", "anchors": ["vshell/vshell.go: MBB, VoxelsPerMM, Dim", "vshell/merge.go: Add, update"]}
{"id": "C78", "title": "a box goes through Voxelize and comes back as a surface around the same voxels", "statement": "For an axis-aligned box of 12 triangles (any size and place, extent at least 1e-9 in z, not left of the grid) Voxelize succeeds, and ManifoldMesh of the result is watertight and MarchingCubes of it closed, and both wind exactly once around every voxel of the grid whose middle square the box meets and not around any other voxel (every point in general position of the octahedron between the voxel's centre and the middles of its six sides). If the box is inside the grid, the volume of the ManifoldMesh surface lies between that of the box shortened by half a voxel at both ends in z and that of the box enlarged by one voxel on each side in x and y and half a voxel on each side in z. And the surface encloses (winds exactly once around) every point of the box that is half a voxel from its bottom and top, and does not wind around any point a voxel or more away from the box in x or y or half a voxel in z (points on voxel borders and some vertical planes excepted).", "quantifier": "all boxes, grids, positions, voxel sizes, map iteration orders and schedules", "why_tests_cant": "the composition of voxelizing and surface extraction over all real-valued sizes, and a statement about every point beside a voxel centre", "anchors": ["binvox/voxelize.go: Voxelize", "binvox/manifold.go: ManifoldMesh", "binvox/marching-cubes.go: MarchingCubes"]}
{"id": "C79", "title": "the script that stldice prints: base minus cuts", "statement": "stldice run on a base and cuts (names of letters, digits and . _ + -, not beginning with -, in a directory without old tiles and results) and then the script it prints come to an end, and leave an STL file (prefix-dim-nx-ny-nz.stl if the tiles have two or more names, else that of the one tile) whose mesh winds once around the inside of every voxel that a voxelization of the whole base sets in the covered part of the grid and that of no cut does, at the place that the voxelization of the whole gives it, and not around any other voxel. prefix is the base's name without .stl if there are no cuts, else out. This needs at least one such voxel; a tile without base file or cut away whole makes its voxcut fail, and the script goes on without it.", "quantifier": "all base and cut meshes with distinct triangles, boxes, resolutions, tile counts, names of these characters, map orders, schedules of merge-stl and mesh builders meeting the contract of C71", "why_tests_cant": "The result depends on file names printed by one program and parsed and globbed by others, on every split of the grid into tiles, on map orders and on goroutine schedules.", "anchors": ["cmd/stldice/stldice.go: main, dice", "cmd/voxcut/voxcut.go: main", "cmd/merge-stl/merge-stl.go: main", "binvox/mesh.go: ToMesh"]}
{"id": "C80", "title": "Voxelizing a convex solid, or several that stand apart", "statement": "Let a mesh be the surface of a bounded convex polyhedron with outward normals (the solid is the set of points that are in front of no triangle). Whatever the shape, the number and the order of its triangles, every voxel of the grid whose square at the middle height of its layer, enlarged by half a voxel to each side, lies in the solid is set after Voxelize; and every voxel that is set has a point of the solid at that height at most half a voxel from it along x and along y. The first half also holds for a file with any number of convex solids of which no two come within two voxels of each other at that height. The mesh that ToMesh makes of one voxelized solid winds exactly once around every point of the grid that has only points of the solid close to it (1.5 voxels in x and y, 0.5 in z), and not at all around any point that has none. Two limits, shown by examples: a solid inside another loses voxels of the outer one; and a solid smaller than a voxel can let the fill run along the row up to the next solid.", "quantifier": "every grid with positive sides and scale, every convex polyhedral surface (any number of triangles) or list of such surfaces, every voxel or point", "why_tests_cant": "Tests voxelize a few small meshes; the property ranges over all convex solids and all grids.", "anchors": ["binvox/voxelize.go: Voxelize, voxelizeZ, intersectTriZPlane, rasterizeShellPair, floodFill, countTris", "binvox/mesh.go: ToMesh"]}
{"id": "C81", "title": "stldice and its script on convex solids: base minus cuts, as a solid", "statement": "Run stldice on a base STL and any number of cut STL files, each the surface of a convex solid, with any box, -dim and numbers of tiles, in a directory without older files of these names, and then run the script that it prints. The STL file that results (one tile's file, or the merged file) winds exactly once around every point inside the diced part of the grid around which, up to 1.5 voxels in x and y and half a voxel in z, there is only base and no cut; and it does not wind around any point around which there is no base, or only cut. A voxel has the side of the box divided by -dim.", "quantifier": "every box, dim, numbers of tiles that divide dim, every convex base and list of convex cuts, every order of the goroutines of merge-stl, every point in general position", "why_tests_cant": "Tests check single programs; no test runs the programs one after another, and the statement ranges over all solids and points.", "anchors": ["cmd/stldice/main.go: main, diceMesh", "cmd/voxcut/main.go: main", "cmd/merge-stl/main.go: main", "binvox/voxelize.go: Voxelize", "binvox/mesh.go: ToMesh"]}
{"id": "C82", "title": "binvox-dice: what running its script leaves", "statement": "binvox-dice prints a script of binvox and voxcut commands. Run in a directory without old files of the names involved, and if binvox succeeds on every box, it leaves, for tile (i, j, k), the STL file whose number is i + px*j + px*py*k (px, py, pz: parts per axis), and that file is made from binvox's output for the box of that very tile of the first argument, minus binvox's output for the same box of the other arguments; it is the surface of the voxels that remain. The script ends in every directory. An older base.binvox is taken for the first tile, an argument x_1.stl next to x.stl is taken for a tile of x, and %% in a name makes voxcut look for another file than binvox wrote.", "quantifier": "all factors, -subx/-suby/-subz, boxes, argument lists, contents of the directory, and all behaviours of the binvox program", "why_tests_cant": "The names that binvox chooses depend on the files that earlier lines left; a test runs one script in one directory.", "anchors": ["cmd/binvox-dice/binvox-dice.go: main", "cmd/voxcut/voxcut.go: main"]}
{"id": "C83", "title": "voxcut-dice over a directory: the files of every tile, and putting the STL tiles together", "statement": "Run voxcut-dice with any of -obinvox, -ostl and -ovox over a directory that holds the base and the cuts, none of them among its outputs. Each tile for which voxcut is not fatal gets all the files asked for, named after the tile, and no other file changes. The binvox file holds exactly what remains of the base in the box of the tile, moved to the origin. The STL and VOX files hold what remains in the box and in one layer of voxels beyond it on each axis (a finding: only -obinvox cuts that layer off). The run stops at the first tile for which voxcut is fatal, the script printed by -n goes on. merge-stl on the STL tiles then gives a mesh with winding number 0 in the voxels that do not remain and 1, 2, 4 or 8 in those that do: twice for every axis on which the voxel's index is a positive multiple of the size.", "quantifier": "all base models and cuts, sizes, prefixes without *, ?, [ and backslash, directories, orders in which maps are visited, and all runs of merge-stl", "why_tests_cant": "A test that dices one model and looks at single tiles does not see the voxels that are in two tiles, nor which later files a fatal tile leaves out.", "anchors": ["cmd/voxcut/voxcut.go: main", "cmd/voxcut-dice/voxcut-dice.go: main", "cmd/voxcut/voxcut.go: writeVOX", "cmd/merge-stl/merge-stl.go: main"]}
{"id": "C84", "title": "ToMesh and then Voxelize: every round trip makes a voxel model thicker", "statement": "Take the mesh of a voxel model from ToMesh and voxelize it again in the same grid. The result holds exactly the voxels of the model and, inside the grid, those next to one of them at +x, at +y and at +x +y (a finding: not the model back; along z nothing is added). After n such round trips the model is n voxels thicker along x and along y.", "quantifier": "all grids, voxel models inside them, voxels-per-mm up to 10^9, all surfaces of the model made of triangles in its faces (joined or not) in any order, all numbers of round trips; exact arithmetic", "why_tests_cant": "A test can compare one model and its round trip; that the outcome is the same for every shape, also where walls meet at edges and every count of triangles cancels, needs an argument over all rows.", "anchors": ["binvox/mesh.go: ToMesh", "binvox/voxelize.go: Voxelize", "binvox/voxelize.go: floodFill"]}
{"id": "C85", "title": "stldice -smooth: when smoothing the normals leaves the voxels alone", "statement": "Voxelize reads of the normals only whether their x is above 10^-9 or below -10^-9, but stldice smooths the normals before it voxelizes. With an angle of less than 90 degrees nothing changes for solids whose sides are along the axes. In general nothing changes, and a whole run of stldice writes the same files and prints the same commands, if every triangle's normal is farther from the plane across x than the angle, or lies in that plane together with all normals that are smoothed with it. Otherwise voxels can be lost (a finding): with 60 degrees, a voxel more than one voxel deep in a convex solid is not set. Whatever the angle, all voxels that the surface touches are still set, and every other one lies between two of them in its row, so a convex solid never grows by more than half a voxel.", "quantifier": "all meshes with unit normals (of fewer than 10^8 triangles, for sides along the axes), all grids, all angles up to 90 degrees; fauxgl's smoothing by its contract, with any new lengths near 1; exact arithmetic", "why_tests_cant": "Which triangles decide the filling depends on all normals that meet in a vertex; a test on one model and angle says nothing about others.", "anchors": ["cmd/stldice/stldice.go: main", "cmd/stldice/stldice.go: diceMesh", "binvox/voxelize.go: floodFill"]}
{"id": "C86", "title": "merge-binvox and merge-stl with any prefix: which files are taken", "statement": "merge-binvox and merge-stl hand their -prefix to filepath.Glob as a pattern. If it has no *, ?, [ or \\ in it, they take exactly the files whose name begins with it and then ends with .binvox or .stl (so C64, C67 and what rests on them apply). With only * or ? in it, none of these files is missed, but files with other names are taken too. With a class like [1] in it, they take exactly the files that have one character of the class in its place, never one that begins with the prefix as written (a finding): merge-binvox over a directory of such files crashes and leaves an empty .vsh file, and merge-stl crashes over such a directory too (so the script that stldice prints for part[1].stl cannot join its tiles), or overwrites an old output file without -f. With a backslash they take files without it. If a bracket is not closed, they end with an error and do nothing. For every prefix with one of these four characters there is a directory in which the files taken are not the right ones.", "quantifier": "all directories and prefixes without a slash, with and without -f, all runs; filepath.Glob by its documentation, file names in ASCII", "why_tests_cant": "There are infinitely many prefixes and directories; the names that a pattern matches by mistake are just those that a test does not think of.", "anchors": ["cmd/merge-binvox/merge-binvox.go: main", "cmd/merge-stl/merge-stl.go: main"]}
