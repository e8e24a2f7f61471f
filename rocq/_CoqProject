-Q theories Verif
theories/Py.v
theories/Loader.v
theories/Dumper.v
theories/Render.v
theories/Examples.v
theories/Fuel.v
theories/Spec.v
theories/Vocab.v
theories/Inv.v
theories/Std.v
theories/Sound.v
theories/Obs.v
theories/Scalars.v
theories/Order.v
theories/Transparent.v
theories/Index.v
theories/Simple.v
theories/Properties1.v
theories/Hist.v
theories/Reuse.v
theories/Stops.v
theories/Items.v
theories/Eval.v
theories/Tuples.v
theories/Dicts.v
theories/Objects.v
theories/ObjFacts.v
theories/Unions.v
theories/Tagged.v
theories/Enums.v
theories/Ground.v
theories/Facts2.v
theories/Facts3.v
theories/Properties2.v
theories/Trace.v
theories/Facts4.v
theories/Dumps.v
theories/Facts5.v
theories/Properties3.v
theories/Properties4.v
theories/Properties5.v
theories/Json.v
theories/Total.v
theories/Term.v
theories/RoundTrip.v
theories/Properties6.v
theories/Properties7.v
theories/Properties8.v
theories/Reference.v
theories/RefSound.v
theories/RefComplete.v
theories/RefUse.v
theories/Properties9.v
theories/Threads.v
theories/Quick.v
theories/Properties10.v
theories/Local.v
theories/Properties11.v
theories/Blame.v
theories/Properties12.v
theories/DumpAny.v
theories/Properties13.v
theories/Properties14.v
theories/DThreads.v
theories/Properties15.v
theories/Schema.v
theories/Model.v
theories/Plain.v
theories/Plain2.v
theories/Plain3.v
theories/Model2.v
theories/Model3.v
theories/Properties16.v
theories/Faults.v
theories/DFaults.v
theories/Properties17.v
theories/Seed.v
theories/Properties18.v
theories/HDumper.v
theories/HDump.v
theories/HLoader.v
theories/HLoad.v
theories/HLoad2.v
theories/HLoad3.v
theories/HLoad4.v
theories/Properties19.v
theories/Properties20.v
theories/Cost.v
theories/Cost3.v
theories/Properties21.v
theories/Cost2.v
theories/Properties22.v
theories/Texts.v
theories/Properties23.v
theories/Evolve.v
theories/Wider.v
theories/Rollback.v
theories/Properties24.v
theories/Properties25.v
theories/Properties26.v
theories/Properties27.v
theories/KeyOrder.v
theories/Properties28.v
theories/Again.v
theories/Properties29.v
theories/Messages.v
theories/Says.v
theories/Properties30.v
theories/Apart.v
theories/Properties31.v
theories/GrowDump.v
theories/Properties32.v
theories/Callback.v
theories/Properties33.v
theories/Properties34.v
theories/First.v
theories/FirstDict.v
theories/FirstRest.v
theories/Properties35.v
