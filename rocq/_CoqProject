-Q theories Verif
theories/BBox/Box2.v
theories/BBox/Model.v
theories/BBox/Proofs.v
theories/BBox/ProofsMore.v
theories/BBox/Props.v
theories/BBox/Spec.v
theories/BIndex/Comp.v
theories/BIndex/Label.v
theories/BIndex/Model.v
theories/BIndex/Props.v
theories/BIndex/Rle.v
theories/BIndex/Spec.v
theories/Basis/Model.v
theories/Basis/Props.v
theories/Basis/Spec.v
theories/Blob/Model.v
theories/Blob/Observers.v
theories/Blob/Proofs.v
theories/Blob/Props.v
theories/Blob/Spec.v
theories/Blocks/Model.v
theories/Blocks/Proofs.v
theories/Blocks/Props.v
theories/Blocks/Spec.v
theories/CNet/Model.v
theories/CNet/Proofs.v
theories/CNet/Props.v
theories/CNet/RProofs.v
theories/CNet/RProps.v
theories/CNet/RSpec.v
theories/CNet/Relation.v
theories/CNet/Spec.v
theories/Cache/Conc.v
theories/Cache/ConcProofs.v
theories/Cache/Dll.v
theories/Cache/Model.v
theories/Cache/Proofs.v
theories/Cache/Props.v
theories/Cache/Spec.v
theories/Cahv/Model.v
theories/Cahv/Props.v
theories/Cahv/Spec.v
theories/Census/Model.v
theories/Census/Proofs.v
theories/Census/Props.v
theories/Census/Spec.v
theories/Chan/Model.v
theories/Chan/Props.v
theories/Chip/Model.v
theories/Chip/Proofs.v
theories/Chip/Props.v
theories/Chip/Rec.v
theories/Chip/Spec.v
theories/Chip/Split.v
theories/Conv/Deriv.v
theories/Conv/Gauss.v
theories/Conv/Model.v
theories/Conv/Proofs.v
theories/Conv/Props.v
theories/Conv/Spec.v
theories/Corr/Model.v
theories/Corr/Proofs.v
theories/Corr/Props.v
theories/Corr/Spec.v
theories/Corr/SubProofs.v
theories/Corr/SubSpec.v
theories/Corr/Subdiv.v
theories/Cut/Cycles.v
theories/Cut/EProofs.v
theories/Cut/HProofs.v
theories/Cut/Model.v
theories/Cut/Proofs.v
theories/Cut/Props.v
theories/Cut/Spec.v
theories/Cut/WProofs.v
theories/DSet/Model.v
theories/DSet/Proofs.v
theories/DSet/Props.v
theories/DSet/Spec.v
theories/Disp/KProofs.v
theories/Disp/MProofs.v
theories/Disp/Model.v
theories/Disp/Props.v
theories/Disp/Spec.v
theories/Disp/TProofs.v
theories/Dist/Model.v
theories/Dist/Proofs.v
theories/Dist/Props.v
theories/Dist/Spec.v
theories/Edge/Model.v
theories/Edge/Proofs.v
theories/Edge/Props.v
theories/Edge/Spec.v
theories/Erode/Model.v
theories/Erode/Proofs.v
theories/Erode/Props.v
theories/Exif/Model.v
theories/Exif/More.v
theories/Exif/Proofs.v
theories/Exif/Props.v
theories/Exif/Spec.v
theories/Frames/ATrans.v
theories/Frames/Above.v
theories/Frames/Calls.v
theories/Frames/Merge.v
theories/Frames/Model.v
theories/Frames/Names.v
theories/Frames/Props.v
theories/Frames/Spec.v
theories/Frames/Store.v
theories/Frames/TProps.v
theories/Frames/TSpec.v
theories/Frames/Trans.v
theories/GeoRef/Model.v
theories/GeoRef/Proofs.v
theories/GeoRef/Props.v
theories/GeoRef/SProofs.v
theories/GeoRef/Spec.v
theories/Grass/Model.v
theories/Grass/Props.v
theories/Grass/Spec.v
theories/IBuf/Laws.v
theories/IBuf/Loops.v
theories/IBuf/Mem.v
theories/IBuf/Model.v
theories/IBuf/More.v
theories/IBuf/Proofs.v
theories/IBuf/Props.v
theories/IBuf/Spec.v
theories/IBuf/Trips.v
theories/ImgMem/Model.v
theories/ImgMem/Proofs.v
theories/ImgMem/Props.v
theories/ImgMem/Spec.v
theories/Integral/Model.v
theories/Integral/Proofs.v
theories/Integral/Props.v
theories/Integral/Spec.v
theories/Interp/CProofs.v
theories/Interp/LProofs.v
theories/Interp/Model.v
theories/Interp/PProofs.v
theories/Interp/Poly.v
theories/Interp/Props.v
theories/Interp/SProofs.v
theories/Interp/Spec.v
theories/Lib/Base.v
theories/Lib/Img.v
theories/Lib/Lists.v
theories/Lib/OMap.v
theories/Lib/QSum.v
theories/Lib/SMap.v
theories/Lib/Str.v
theories/Line/Model.v
theories/Line/Props.v
theories/Log/Model.v
theories/Log/Proofs.v
theories/Log/Props.v
theories/Log/Spec.v
theories/MFun/Model.v
theories/MFun/Proofs.v
theories/MFun/Props.v
theories/MInv/Alt.v
theories/MInv/Det.v
theories/MInv/Model.v
theories/MInv/Proofs.v
theories/MInv/Props.v
theories/MInv/Solve.v
theories/MInv/Spec.v
theories/MatchIO/Model.v
theories/MatchIO/Proofs.v
theories/MatchIO/Props.v
theories/MatchIO/Spec.v
theories/MatchName/Model.v
theories/MatchName/Proofs.v
theories/MatchName/Props.v
theories/MatchName/Spec.v
theories/Mst/Graph.v
theories/Mst/Model.v
theories/Mst/Proofs.v
theories/Mst/Props.v
theories/Mst/Spec.v
theories/Mst/Walk.v
theories/Pbm/Model.v
theories/Pbm/Proofs.v
theories/Pbm/Props.v
theories/Pbm/Spec.v
theories/Peaks/Model.v
theories/Peaks/Props.v
theories/Peaks/Spec.v
theories/Pinhole/Model.v
theories/Pinhole/Proofs.v
theories/Pinhole/Props.v
theories/Pinhole/Spec.v
theories/Poly/EProofs.v
theories/Poly/FProofs.v
theories/Poly/GProofs.v
theories/Poly/HProofs.v
theories/Poly/Model.v
theories/Poly/Proofs.v
theories/Poly/Props.v
theories/Poly/SProofs.v
theories/Poly/Spec.v
theories/Pool/Model.v
theories/Pool/Proofs.v
theories/Pool/Props.v
theories/Pool/Queues.v
theories/Progress/Model.v
theories/Progress/Props.v
theories/Progress/Spec.v
theories/QTree/Model.v
theories/QTree/Proofs.v
theories/QTree/Props.v
theories/QTree/Spec.v
theories/QTree/Tree.v
theories/Quat/Model.v
theories/Quat/Proofs.v
theories/Quat/Props.v
theories/Quat/Spec.v
theories/Ransac/Model.v
theories/Ransac/Proofs.v
theories/Ransac/Props.v
theories/Ransac/Spec.v
theories/STree/Build.v
theories/STree/Geom.v
theories/STree/Grid.v
theories/STree/Insert.v
theories/STree/Model.v
theories/STree/Proofs.v
theories/STree/Props.v
theories/STree/Spec.v
theories/STree/Total.v
theories/Sgm/Accum.v
theories/Sgm/Dp.v
theories/Sgm/Lines.v
theories/Sgm/Mem.v
theories/Sgm/Model.v
theories/Sgm/Par.v
theories/Sgm/Pass.v
theories/Sgm/Proofs.v
theories/Sgm/Props.v
theories/Sgm/Spec.v
theories/SgmBox/Model.v
theories/SgmBox/Proofs.v
theories/SgmBox/Props.v
theories/SgmBox/Spec.v
theories/SgmSel/Cost.v
theories/SgmSel/Model.v
theories/SgmSel/Props.v
theories/SgmSel/Spec.v
theories/SgmSel/Vec.v
theories/SgmSel/View.v
theories/Sky/Algebra.v
theories/Sky/History.v
theories/Sky/Model.v
theories/Sky/Proofs.v
theories/Sky/Props.v
theories/Sky/Spec.v
theories/Sparse/Model.v
theories/Sparse/Proofs.v
theories/Sparse/Props.v
theories/Sparse/Spec.v
theories/Stats/Model.v
theories/Stats/Proofs.v
theories/Stats/Props.v
theories/Stats/Spec.v
theories/Stereo/Model.v
theories/Stereo/Proofs.v
theories/Stereo/Props.v
theories/Stereo/Spec.v
theories/StrRep/Model.v
theories/StrRep/Proofs.v
theories/StrRep/Props.v
theories/StrRep/Spec.v
theories/TQueue/Model.v
theories/TQueue/Props.v
theories/TQueue/Spec.v
theories/Tracks/LProofs.v
theories/Tracks/MProofs.v
theories/Tracks/Model.v
theories/Tracks/Proofs.v
theories/Tracks/Props.v
theories/Tracks/Spec.v
theories/Tree/Copy.v
theories/Tree/Model.v
theories/Tree/Proofs.v
theories/Tree/Props.v
theories/Tree/Spec.v
theories/Tree/Trees.v
theories/Utm/Model.v
theories/Utm/Props.v
theories/Utm/Spec.v
theories/Views/Model.v
theories/Views/Proofs.v
theories/Views/Props.v
theories/Views/Spec.v
theories/Warp/AProofs.v
theories/Warp/BProofs.v
theories/Warp/IProofs.v
theories/Warp/Model.v
theories/Warp/Props.v
theories/Warp/Spec.v
theories/Warp/XProofs.v
theories/Watch/Model.v
theories/Watch/Proofs.v
theories/Watch/Props.v
theories/Watch/Spec.v
