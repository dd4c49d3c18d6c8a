-Q theories Verif
theories/AghModel.v
theories/AghProofs.v
theories/AghProofs2.v
theories/AghProofs3.v
theories/AghProofs4.v
theories/AghProps.v
theories/AghSpec.v
theories/AgridModel.v
theories/AgridProofs.v
theories/AgridProps.v
theories/AgridSpec.v
theories/AllocModel.v
theories/AllocProofs.v
theories/AllocProps.v
theories/AllocSpec.v
theories/AlsModel.v
theories/AlsProofs.v
theories/AlsProofs2.v
theories/AlsProofs3.v
theories/AlsProofs4.v
theories/AlsProofs5.v
theories/AlsProofs6.v
theories/AlsProps.v
theories/AlsSpec.v
theories/AtomicModel.v
theories/AtomicProofs.v
theories/AtomicProps.v
theories/AtomicSpec.v
theories/BchtModel.v
theories/BchtProofs.v
theories/BchtProofs2.v
theories/BchtProofs3.v
theories/BchtProps.v
theories/BchtSpec.v
theories/BhtLockModel.v
theories/BhtLockProps.v
theories/BhtModel.v
theories/BhtProofs.v
theories/BhtProofs2.v
theories/BhtProofs3.v
theories/BhtProofs4.v
theories/BhtProofs5.v
theories/BhtProps.v
theories/BhtSpec.v
theories/BitLin.v
theories/BitsModel.v
theories/BitsProofs.v
theories/BitsProofs2.v
theories/BitsProofs3.v
theories/BitsProps.v
theories/BitsSpec.v
theories/BktModel.v
theories/BktProofs.v
theories/BktProps.v
theories/BktSpec.v
theories/BvhBits.v
theories/BvhBuild.v
theories/BvhBuild2.v
theories/BvhFacts.v
theories/BvhModel.v
theories/BvhProps.v
theories/BvhQModel.v
theories/BvhQProofs.v
theories/BvhQProofs2.v
theories/BvhQProps.v
theories/BvhQSpec.v
theories/BvhRefit.v
theories/BvhSpec.v
theories/BvhTopo.v
theories/BvhTree.v
theories/BvsModel.v
theories/BvsProofs.v
theories/BvsProps.v
theories/BvsSpec.v
theories/BvttModel.v
theories/BvttProps.v
theories/CallbacksModel.v
theories/CallbacksProofs.v
theories/CallbacksProps.v
theories/CallbacksSpec.v
theories/CgModel.v
theories/CgProofs.v
theories/CgProofs2.v
theories/CgProps.v
theories/CgSpec.v
theories/CiModel.v
theories/CiProofs.v
theories/CiProofs2.v
theories/CiProofs3.v
theories/CiProofs4.v
theories/CiProps.v
theories/CiSpec.v
theories/CmModel.v
theories/CmProofs.v
theories/CmProofs2.v
theories/CmProofs3.v
theories/CmProofs4.v
theories/CmProofs5.v
theories/CmProps.v
theories/CmSpec.v
theories/CmapModel.v
theories/CmapProofs.v
theories/CmapProps.v
theories/CmapSpec.v
theories/ColModel.v
theories/ColProofs.v
theories/ColProps.v
theories/ColSpec.v
theories/CollapseModel.v
theories/CollapseProofs.v
theories/CollapseProofs2.v
theories/CollapseProps.v
theories/CollapseSpec.v
theories/ColorModel.v
theories/ColorProofs.v
theories/ColorProofs2.v
theories/ColorProps.v
theories/ColorSpec.v
theories/CountModel.v
theories/CountProofs.v
theories/CpModel.v
theories/CpProofs.v
theories/CpProps.v
theories/CpSpec.v
theories/CpxModel.v
theories/CpxProofs.v
theories/CpxProofs2.v
theories/CpxProps.v
theories/CpxSpec.v
theories/CrProofs.v
theories/CrProps.v
theories/CvModel.v
theories/CvProofs.v
theories/CvProofs2.v
theories/CvProps.v
theories/CvSpec.v
theories/DfModel.v
theories/DfProofs.v
theories/DfProps.v
theories/DfSpec.v
theories/DgModel.v
theories/DgProofs.v
theories/DgProofs2.v
theories/DgProofs3.v
theories/DgProofs4.v
theories/DgProps.v
theories/DgSpec.v
theories/DihModel.v
theories/DihProofs.v
theories/DihProofs2.v
theories/DihProofs3.v
theories/DihProofs4.v
theories/DihProofs5.v
theories/DihProps.v
theories/DihSpec.v
theories/DistModel.v
theories/DistProofs.v
theories/DistProofs2.v
theories/DistProofs3.v
theories/DistProofs4.v
theories/DistProofs5.v
theories/DistProofs6.v
theories/DistProofs7.v
theories/DistProofs8.v
theories/DistProofs9.v
theories/DistProps.v
theories/DistSpec.v
theories/DvModel.v
theories/DvProofs.v
theories/DvProps.v
theories/DvSpec.v
theories/EigModel.v
theories/EigProofs.v
theories/EigProofs2.v
theories/EigProofs3.v
theories/EigProofs4.v
theories/EigProofs5.v
theories/EigProps.v
theories/EigSpec.v
theories/FieldTac.v
theories/FlowModel.v
theories/FlowProofs.v
theories/FlowProofs2.v
theories/FlowProofs3.v
theories/FlowProofs4.v
theories/FlowProofs5.v
theories/FlowProps.v
theories/FlowSpec.v
theories/FnModel.v
theories/FnProofs.v
theories/FnProps.v
theories/FnSpec.v
theories/FricModel.v
theories/FricProofs.v
theories/FricProps.v
theories/FricSpec.v
theories/HashModel.v
theories/HashProofs.v
theories/HashTableModel.v
theories/HashTableProofs.v
theories/HashTableProps.v
theories/HashTableSpec.v
theories/HpModel.v
theories/HpProofs.v
theories/HpProps.v
theories/IdxModel.v
theories/IdxProofs.v
theories/IdxProps.v
theories/IdxSpec.v
theories/IoModel.v
theories/IoProofs.v
theories/IoProps.v
theories/IoSpec.v
theories/ItModel.v
theories/ItProofs.v
theories/ItProofs2.v
theories/ItProofs3.v
theories/ItProps.v
theories/ItSpec.v
theories/KernModel.v
theories/KernProofs.v
theories/KernProofs2.v
theories/KernProofs3.v
theories/KernProofs4.v
theories/KernProofs5.v
theories/KernProps.v
theories/KernSpec.v
theories/LbModel.v
theories/LbProofs.v
theories/LbProps.v
theories/LcModel.v
theories/LcProofs.v
theories/LcProps.v
theories/LcSpec.v
theories/LdModel.v
theories/LdProofs.v
theories/LdProps.v
theories/LdSpec.v
theories/LeModel.v
theories/LeProofs.v
theories/LeProps.v
theories/LeSpec.v
theories/LitModel.v
theories/LitProofs.v
theories/LitProps.v
theories/LitSpec.v
theories/LwModel.v
theories/LwProofs.v
theories/LwProps.v
theories/LwSpec.v
theories/MaskModel.v
theories/MaskProofs.v
theories/MaskProps.v
theories/MaskSpec.v
theories/MatModel.v
theories/MatProofs.v
theories/MatProofs2.v
theories/MatProofs3.v
theories/MatProofs4.v
theories/MatProps.v
theories/MatSpec.v
theories/MnModel.v
theories/MnProofs.v
theories/MnProps.v
theories/MnSpec.v
theories/MpmModel.v
theories/MpmProofs.v
theories/MpmProofs2.v
theories/MpmProps.v
theories/MpmSpec.v
theories/MuModel.v
theories/MuProofs.v
theories/MuProps.v
theories/MuSpec.v
theories/MutexModel.v
theories/MutexProofs.v
theories/MutexProofs2.v
theories/MutexProps.v
theories/MutexSpec.v
theories/NewtModel.v
theories/NewtProps.v
theories/NraTac.v
theories/OwnModel.v
theories/OwnProofs.v
theories/OwnProps.v
theories/OwnSpec.v
theories/ParkModel.v
theories/ParkProofs.v
theories/ParkProofs2.v
theories/ParkProps.v
theories/ParkSpec.v
theories/PcgModel.v
theories/PcgProofs.v
theories/PcgProps.v
theories/PcgSpec.v
theories/PdModel.v
theories/PdProofs.v
theories/PdProofs2.v
theories/PdProofs3.v
theories/PdProofs4.v
theories/PdProofs5.v
theories/PdProofs6.v
theories/PdProps.v
theories/PdSpec.v
theories/PfModel.v
theories/PfProofs.v
theories/PfProofs2.v
theories/PfProps.v
theories/PfSpec.v
theories/PlModel.v
theories/PlProofs.v
theories/PlProofs2.v
theories/PlProps.v
theories/PlSpec.v
theories/PredModel.v
theories/PredProofs.v
theories/PredProofs10.v
theories/PredProofs11.v
theories/PredProofs12.v
theories/PredProofs2.v
theories/PredProofs3.v
theories/PredProofs4.v
theories/PredProofs5.v
theories/PredProofs6.v
theories/PredProofs7.v
theories/PredProofs8.v
theories/PredProofs9.v
theories/PredProps.v
theories/PredSpec.v
theories/Prelude.v
theories/ProbModel.v
theories/ProbProofs.v
theories/ProbProps.v
theories/ProbSpec.v
theories/QuickProofs.v
theories/RadixModel.v
theories/RadixProofs.v
theories/RadixProps.v
theories/RadixSpec.v
theories/RatModel.v
theories/RatProofs.v
theories/RatProofs2.v
theories/RatProofs3.v
theories/RatProps.v
theories/RatSpec.v
theories/RbHeap.v
theories/RbHeap2.v
theories/RbHeap3.v
theories/RbHeap4.v
theories/RbHeap5.v
theories/RbHeap6.v
theories/RbIter.v
theories/RbModel.v
theories/RbOps.v
theories/RbOps2.v
theories/RbOps3.v
theories/RbProps.v
theories/RbRun.v
theories/RbRunProofs.v
theories/RbRunProofs2.v
theories/RbSpec.v
theories/RbTree.v
theories/RdModel.v
theories/RdProofs.v
theories/RdProps.v
theories/RdSpec.v
theories/RingModel.v
theories/RingProofs.v
theories/RingProps.v
theories/RingSpec.v
theories/RotModel.v
theories/RotProofs.v
theories/RotProofs2.v
theories/RotProofs3.v
theories/RotProofs4.v
theories/RotProofs5.v
theories/RotProofs6.v
theories/RotProps.v
theories/RotSpec.v
theories/ScanModel.v
theories/ScanProofs.v
theories/ScanProps.v
theories/ScanSpec.v
theories/SgModel.v
theories/SgProofs.v
theories/SgProofs2.v
theories/SgProofs3.v
theories/SgProps.v
theories/SgSpec.v
theories/ShModel.v
theories/ShProofs.v
theories/ShProofs2.v
theories/ShProps.v
theories/ShSpec.v
theories/SlModel.v
theories/SlProofs.v
theories/SlProps.v
theories/SlSpec.v
theories/SortModel.v
theories/SortProofs.v
theories/SortProofs2.v
theories/SortProofs3.v
theories/SortProps.v
theories/SortSpec.v
theories/SpmBuildModel.v
theories/SpmBuildProofs.v
theories/SpmModel.v
theories/SpmProofs.v
theories/SpmProps.v
theories/SpmSpec.v
theories/SpmTransProofs.v
theories/SpmvModel.v
theories/SpmvProofs.v
theories/SpmvSpec.v
theories/SrModel.v
theories/SrProofs.v
theories/SrProps.v
theories/SrSpec.v
theories/StrModel.v
theories/StrProofs.v
theories/StrProps.v
theories/StrSpec.v
theories/SvdModel.v
theories/SvdProofs.v
theories/SvdProofs2.v
theories/SvdProofs3.v
theories/SvdProofs4.v
theories/SvdProofs5.v
theories/SvdProofs6.v
theories/SvdProofs7.v
theories/SvdProofs8.v
theories/SvdProps.v
theories/SvdSpec.v
theories/SwModel.v
theories/SwProofs.v
theories/SwProps.v
theories/SwSpec.v
theories/TileModel.v
theories/TileProofs.v
theories/TileProps.v
theories/TileSpec.v
theories/TqModel.v
theories/TqProofs.v
theories/TqProps.v
theories/TqSpec.v
theories/TvModel.v
theories/TvProofs.v
theories/TvProps.v
theories/TvSpec.v
theories/UfModel.v
theories/UfProofs.v
theories/UfProofs2.v
theories/UfProps.v
theories/UfSpec.v
theories/UptrModel.v
theories/UptrProofs.v
theories/UptrProps.v
theories/UptrSpec.v
theories/VectorModel.v
theories/VectorProofs.v
theories/VectorProps.v
theories/VectorSpec.v
theories/VmemModel.v
theories/VmemProofs.v
theories/VmemProps.v
theories/VmemSpec.v
theories/VsModel.v
theories/VsProofs.v
theories/VsProps.v
theories/VsSpec.v
theories/VtModel.v
theories/VtProofs.v
theories/VtProps.v
theories/VtSpec.v
