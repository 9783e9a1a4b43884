-Q theories Verif
theories/Base.v
theories/Queue.v
theories/LockProto.v
theories/Sched.v
theories/CSort.v
theories/Prepare.v
theories/LockSeq.v
theories/Api.v
theories/SchedEx.v
theories/Props_sched.v
theories/TaskGraph.v
theories/TaskGraphFacts.v
theories/TaskDeps.v
theories/Footprint.v
theories/GraphApi.v
theories/GraphHist.v
theories/GraphRun.v
theories/Races.v
theories/Determinism.v
theories/SlotFree.v
theories/SlotFinal.v
theories/GraphEx.v
theories/Props_graph.v
theories/DryRun.v
theories/MemLimit.v
theories/Props_mem.v
theories/Converge.v
theories/Progress.v
theories/Props_converge.v
theories/ResultTable.v
theories/Props_table.v
theories/Average.v
theories/Lookup.v
theories/Index.v
theories/Props_num.v
theories/Legendre.v
theories/Wigner.v
theories/Props_wigner.v
theories/Quadrature.v
theories/GaussExact.v
theories/Orientation.v
theories/Props_quad.v
theories/Matrix.v
theories/Props_matrix.v
theories/Optics.v
theories/Props_optics.v
theories/Parse.v
theories/Props_parse.v
theories/Yaml.v
theories/YamlFacts.v
theories/Props_yaml.v
theories/CmdLine.v
theories/Props_cmdline.v
theories/MD5.v
theories/Props_md5.v
theories/Units.v
theories/Props_units.v
theories/Fair.v
theories/Live.v
theories/LiveEx.v
theories/Props_live.v
theories/Racah.v
theories/Clebsch.v
theories/Align.v
theories/AlignFacts.v
theories/Props_align.v
theories/QMatrix.v
theories/QFacts.v
theories/Ebcm.v
theories/EbcmFacts.v
theories/Props_tmatrix.v
theories/BesselSpec.v
theories/Bessel.v
theories/BesselFacts.v
theories/BesselRun.v
theories/BesselBound.v
theories/BesselAcc.v
theories/Props_bessel.v
theories/Shape.v
theories/ShapeFacts.v
theories/ShapeDep.v
theories/ShapeSearch.v
theories/Props_shape.v
theories/GaussRoots.v
theories/Adaptive.v
theories/Props_adaptive.v
theories/Refraction.v
theories/Props_refraction.v
theories/TClass.v
theories/TClassFacts.v
theories/Props_tclass.v
theories/Frames.v
theories/FramesFacts.v
theories/Props_frames.v
theories/Props_outputs.v
theories/Ortho.v
theories/AverageFacts.v
theories/Azimuth.v
theories/GaussBounds.v
theories/Props_average.v
theories/Whole.v
theories/Props_whole.v
theories/Observables.v
theories/Props_observables.v
theories/Physics.v
theories/Props_physics.v
theories/Density.v
theories/Interp.v
theories/Bands.v
theories/Props_density.v
theories/NumPy.v
theories/Props_numpy.v
theories/PyTMatrix.v
theories/Props_pytmatrix.v
theories/Mie.v
theories/Props_mie.v
theories/BesselEnergy.v
theories/Props_energy.v
theories/Props_pyexample.v
theories/Addition.v
theories/Props_sphere.v
theories/Props_spheretable.v
theories/GetTable.v
theories/Props_gettable.v
theories/Rotation.v
theories/Props_rotation.v
theories/AlignObject.v
theories/Props_ensemble.v
theories/Harmonics.v
theories/VectorHarmonics.v
theories/Props_orientmean.v
theories/Props_cloud.v
theories/NumText.v
theories/Props_numtext.v
theories/Program.v
theories/Props_program.v
theories/Interaction.v
theories/Props_interaction.v
theories/PyLife.v
theories/Props_pylife.v
theories/Callback.v
theories/Props_callback.v
theories/Doubles.v
theories/Props_doubles.v
theories/DoubleMean.v
theories/Props_doublemean.v
theories/ScatRes.v
theories/Props_scatres.v
theories/Tools.v
theories/Props_tools.v
theories/PyShape.v
theories/Props_pyshape.v
theories/DoubleShape.v
theories/Props_doubleshape.v
